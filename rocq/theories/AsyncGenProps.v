(** Theorems about asynchronous generators (C54). *)
From Coq Require Import ZifyBool ZifyNat.
From Verif Require Import Common AsyncGenModel.

(** ** Specification: the consumer reads the sequence of the producer, the events do not show *)
Section Spec.
Context {S V R : Type} (step : S -> pout S V).

(** The next value of the producer and its state at that co_yield, the end, or the exception. *)
Inductive item := VItem (v : V) (s : S) | VEnd | VExn (e : exn).

Inductive pull : S -> item -> Prop :=
| PlYield s v s' : step s = AYield v s' -> pull s (VItem v s')
| PlEnd s : step s = AReturn -> pull s VEnd
| PlExn s e : step s = AThrow e -> pull s (VExn e)
| PlWait s s' i : step s = AWait s' -> pull s' i -> pull s i.

(** Where the consumer is: before the first value, at a value, past the last one. *)
Inductive cursor := UNew (s : S) | UAt (v : V) (s : S) | UFin.

Definition moved (i : item) : cursor := match i with VItem v s => UAt v s | _ => UFin end.
Definition shown (i : item) : ires := match i with VItem _ _ => IAt | VEnd => IEnd | VExn e => IExn e end.

(** [reads u c r]: the consumer [c] standing at [u] ends with [r]. *)
Inductive reads : cursor -> client V R -> R -> Prop :=
| RdBegin s k i r : pull s i -> reads (moved i) (k (shown i)) r -> reads (UNew s) (KBegin k) r
| RdNext v s k i r : pull s i -> reads (moved i) (k (shown i)) r -> reads (UAt v s) (KNext k) r
| RdDeref v s k r : reads (UAt v s) (k v) r -> reads (UAt v s) (KDeref k) r
| RdEvent u k r : reads u k r -> reads u (KEvent k) r
| RdRet u r : reads u (KRet r) r.

End Spec.
Arguments item : clear implicits. Arguments cursor : clear implicits.

(** A consumer that calls begin() once, and increments and dereferences only an iterator that is not at the end. *)
Inductive place := NoIter | AtValue | AtEnd.
Definition place_of (i : ires) : place := match i with IAt => AtValue | _ => AtEnd end.

Fixpoint proper {V R} (p : place) (c : client V R) : Prop :=
  match c with
  | KBegin k => p = NoIter /\ forall i, proper (place_of i) (k i)
  | KNext k => p = AtValue /\ forall i, proper (place_of i) (k i)
  | KDeref k => p = AtValue /\ forall v, proper p (k v)
  | KEvent k => proper p k
  | KRet _ => True
  end.

Section Proofs.
Context {S V R : Type} (step : S -> pout S V).

Definition place_at (u : cursor S V) : place := match u with UNew _ => NoIter | UAt _ _ => AtValue | UFin => AtEnd end.

(** The state of the machine that corresponds to a cursor. *)
Definition at_cursor (u : cursor S V) (m : amach S V R) : Prop :=
  match u with
  | UNew s => pc m = PSuspended s /\ aexn m = None /\ iter m = None
  | UAt v s => pc m = PSuspended s /\ aexn m = None /\ iter m = Some true /\ cur m = Some (Some v)
  | UFin => pc m = PDone /\ aexn m = None /\ iter m <> Some true
  end.

Definition pending (u : cursor S V) (m : amach S V R) : Prop :=
  match ctl m with
  | CRun c | CEvent c => at_cursor u m /\ proper (place_at u) c
  | PRun b k | PEvent b k =>
    exists s, pc m = PSuspended s /\ aexn m = None /\ iter m = (if b then None else Some true) /\ (forall i, proper (place_of i) (k i)) /\ u = UNew s
  | CDone _ => True
  end.

(** What is left to be read from a state: the specification of the pending operation. *)
Definition left_to (u : cursor S V) (m : amach S V R) (r : R) : Prop :=
  match ctl m with
  | CRun c | CEvent c => reads step u c r
  | PRun b k | PEvent b k => exists s i, u = UNew s /\ pull step s i /\ reads step (moved i) (k (shown i)) r
  | CDone r' => r = r'
  end.

Lemma atick_sim u m : pending u m ->
  exists u' m', atick step m = Ok m' /\ pending u' m' /\ (forall r, left_to u' m' r <-> left_to u m r).
Proof.
  intros H. unfold atick, pending in *. destruct (ctl m) as [c|c|b k|b k|r] eqn:Hc.
  - destruct H as [Hu Hp]. destruct c as [k|k|k|k|r]; cbn [proper] in Hp.
    + destruct Hp as [Hp Hk]. destruct u as [s|v s|]; try discriminate. destruct Hu as (U1 & U2 & U3). rewrite U1.
      exists (UNew s). eexists. split; [reflexivity|]. cbn [ctl pc aexn iter]. split; [exists s; auto|].
      intros r. unfold left_to. cbn [ctl]. rewrite Hc. split.
      * intros (s' & i & A & B & C). injection A as A. subst s'. econstructor; eauto.
      * intros A. inversion A; subst. eauto.
    + destruct Hp as [Hp Hk]. destruct u as [s|v s|]; try discriminate. destruct Hu as (U1 & U2 & U3 & U4). rewrite U3, U1.
      exists (UNew s). eexists. split; [reflexivity|]. cbn [ctl pc aexn iter]. split; [exists s; auto|].
      intros r. unfold left_to. cbn [ctl]. rewrite Hc. split.
      * intros (s' & i & A & B & C). injection A as A. subst s'. econstructor; eauto.
      * intros A. inversion A; subst. eauto.
    + destruct Hp as [Hp Hk]. destruct u as [s|v s|]; try discriminate. destruct Hu as (U1 & U2 & U3 & U4). rewrite U3, U4.
      exists (UAt v s). eexists. split; [reflexivity|]. cbn [ctl]. split.
      { split; [now cbn|]. apply (Hk v). }
      intros r. unfold left_to. cbn [ctl]. rewrite Hc. split; [now constructor|]. intros A. now inversion A; subst.
    + exists u. eexists. split; [reflexivity|]. cbn [ctl]. split; [split; [destruct u; exact Hu|exact Hp]|].
      intros r. unfold left_to. cbn [ctl]. rewrite Hc. split; [now constructor|]. intros A. now inversion A; subst.
    + exists u. eexists. split; [reflexivity|]. cbn [ctl]. split; [exact Logic.I|].
      intros r'. unfold left_to. cbn [ctl]. rewrite Hc. split; [intros ->; constructor|]. intros A. now inversion A; subst.
  - destruct H as [Hu Hp]. exists u. eexists. split; [reflexivity|]. cbn [ctl]. split; [split; [destruct u; exact Hu|exact Hp]|].
    intros r. unfold left_to. cbn [ctl]. rewrite Hc. tauto.
  - destruct H as (s & U1 & U2 & U3 & Hk & ->). rewrite U1. destruct (step s) as [v s'| |e|s'] eqn:Hs.
    + exists (UAt v s'). unfold await_resume. cbn [cur aexn pc iter]. eexists. split; [reflexivity|]. cbn [ctl]. split.
      { split; [|exact (Hk IAt)]. cbn. rewrite U3. destruct b; auto. }
      intros r. unfold left_to. cbn [ctl]. rewrite Hc. split.
      * intros A. exists s, (VItem v s'). split; auto. split; [now constructor|auto].
      * intros (s1 & i & A & B & C). injection A as A. subst s1. inversion B; subst; try congruence.
        rewrite Hs in *. match goal with H : AYield _ _ = AYield _ _ |- _ => injection H as -> -> end. exact C.
    + exists UFin. unfold await_resume. cbn [cur aexn pc iter]. rewrite U2. eexists. split; [reflexivity|]. cbn [ctl]. split.
      { split; [|exact (Hk IEnd)]. cbn. repeat split; auto. discriminate. }
      intros r. unfold left_to. cbn [ctl]. rewrite Hc. split.
      * intros A. exists s, VEnd. split; auto. split; [now constructor|auto].
      * intros (s1 & i & A & B & C). injection A as A. subst s1. inversion B; subst; try congruence. exact C.
    + exists UFin. unfold await_resume. cbn [cur aexn pc iter]. eexists. split; [reflexivity|]. cbn [ctl]. split.
      { split; [|exact (Hk (IExn e))]. cbn. repeat split; auto. rewrite U3. destruct b; discriminate. }
      intros r. unfold left_to. cbn [ctl]. rewrite Hc. split.
      * intros A. exists s, (VExn e). split; auto. split; [now constructor|auto].
      * intros (s1 & i & A & B & C). injection A as A. subst s1. inversion B; subst; try congruence.
        rewrite Hs in *. match goal with H : AThrow _ = AThrow _ |- _ => injection H as -> end. exact C.
    + exists (UNew s'). eexists. split; [reflexivity|]. cbn [ctl pc aexn iter]. split; [exists s'; auto|].
      intros r. unfold left_to. cbn [ctl]. rewrite Hc. split.
      * intros (s1 & i & A & B & C). injection A as A. subst s1. exists s, i. split; auto. split; auto. eapply PlWait; eauto.
      * intros (s1 & i & A & B & C). injection A as A. subst s1. inversion B; subst; try congruence.
        rewrite Hs in *. match goal with H : AWait _ = AWait _ |- _ => injection H as -> end. eauto.
  - destruct H as (s & U1 & U2 & U3 & Hk & ->). exists (UNew s). eexists. split; [reflexivity|]. cbn [ctl pc aexn iter].
    split; [exists s; auto|]. intros r. unfold left_to. cbn [ctl]. rewrite Hc. tauto.
  - exists u, m. split; [reflexivity|]. rewrite Hc. tauto.
Qed.

Lemma aticks_sim n : forall u m, pending u m ->
  exists u' m', aticks step n m = Ok m' /\ pending u' m' /\ (forall r, left_to u' m' r <-> left_to u m r).
Proof.
  induction n as [|n IH]; intros u m H; cbn [aticks].
  - exists u, m. split; [reflexivity|]. split; [auto|tauto].
  - destruct (atick_sim u m H) as (u1 & m1 & A1 & A2 & A3). rewrite A1. cbn [rbind].
    destruct (IH u1 m1 A2) as (u2 & m2 & B1 & B2 & B3). exists u2, m2. split; auto. split; auto. intros r. now rewrite B3.
Qed.

Lemma aticks_app n n' (m : amach S V R) : aticks step (n + n') m = let* m' := aticks step n m in aticks step n' m'.
Proof. revert m. induction n as [|n IH]; intros m; cbn [aticks plus rbind]; auto. destruct (atick step m); cbn; auto. Qed.

Lemma pull_runs s i : pull step s i -> forall b k c it, exists n,
  aticks step n (AMach (PSuspended s) c None it (PRun b k) : amach S V R) =
  await_resume b k (match i with
    | VItem v s' => AMach (PSuspended s') (Some (Some v)) None it (PRun b k)
    | VEnd => AMach PDone (Some None) None it (PRun b k)
    | VExn e => AMach PDone (Some None) (Some e) it (PRun b k) end).
Proof.
  intros Hp. induction Hp as [s v s' Hs|s Hs|s e Hs|s s' i Hs Hp IH]; intros b k c it.
  - exists 1. cbn [aticks]. unfold atick. cbn [ctl pc aexn iter]. rewrite Hs. reflexivity.
  - exists 1. cbn [aticks]. unfold atick. cbn [ctl pc aexn iter]. rewrite Hs. reflexivity.
  - exists 1. cbn [aticks]. unfold atick. cbn [ctl pc aexn iter]. rewrite Hs. reflexivity.
  - destruct (IH b k c it) as [n Hn]. exists (Datatypes.S (Datatypes.S n)). cbn [aticks]. unfold atick at 1. cbn [ctl pc aexn iter cur]. rewrite Hs.
    cbn [rbind]. unfold atick at 1. cbn [ctl pc aexn iter cur rbind]. apply Hn.
Qed.

Lemma reads_runs u c r : reads step u c r -> forall m, at_cursor u m -> ctl m = CRun c ->
  exists n m', aticks step n m = Ok m' /\ ctl m' = CDone r.
Proof.
  intros Hr. induction Hr as [s k i r Hp Hr IH|v s k i r Hp Hr IH|v s k r Hr IH|u k r Hr IH|u r]; intros m Hu Hc.
  - destruct m as [p c x it ct]. cbn in Hu, Hc. destruct Hu as (-> & -> & ->). subst ct.
    destruct (pull_runs s i Hp true k c None) as [n Hn].
    assert (A : exists m1, aticks step n (AMach (PSuspended s) c None None (PRun true k)) = Ok m1 /\ at_cursor (moved i) m1 /\ ctl m1 = CRun (k (shown i))).
    { rewrite Hn. destruct i as [v s'| |e]; unfold await_resume; cbn [cur aexn pc iter]; eexists; (split; [reflexivity|]); cbn; repeat split; auto; discriminate. }
    destruct A as (m1 & A1 & A2 & A3). destruct (IH m1 A2 A3) as (n' & m' & B1 & B2).
    exists (1 + (n + n')), m'. rewrite aticks_app. cbn [aticks]. unfold atick. cbn [ctl pc aexn iter cur rbind]. rewrite aticks_app, A1. auto.
  - destruct m as [p c x it ct]. cbn in Hu, Hc. destruct Hu as (-> & -> & -> & ->). subst ct.
    destruct (pull_runs s i Hp false k (Some (Some v)) (Some true)) as [n Hn].
    assert (A : exists m1, aticks step n (AMach (PSuspended s) (Some (Some v)) None (Some true) (PRun false k)) = Ok m1 /\ at_cursor (moved i) m1 /\ ctl m1 = CRun (k (shown i))).
    { rewrite Hn. destruct i as [v' s'| |e]; unfold await_resume; cbn [cur aexn pc iter]; eexists; (split; [reflexivity|]); cbn; repeat split; auto; discriminate. }
    destruct A as (m1 & A1 & A2 & A3). destruct (IH m1 A2 A3) as (n' & m' & B1 & B2).
    exists (1 + (n + n')), m'. rewrite aticks_app. cbn [aticks]. unfold atick. cbn [ctl pc aexn iter cur rbind]. rewrite aticks_app, A1. auto.
  - destruct m as [p c x it ct]. cbn in Hu, Hc. destruct Hu as (-> & -> & -> & ->). subst ct.
    destruct (IH (AMach (PSuspended s) (Some (Some v)) None (Some true) (CRun (k v)))) as (n & m' & B1 & B2); [now cbn|reflexivity|].
    exists (Datatypes.S n), m'. auto.
  - destruct m as [p c x it ct]. cbn in Hc. subst ct.
    destruct (IH (AMach p c x it (CRun k))) as (n & m' & B1 & B2); [destruct u; exact Hu|reflexivity|].
    exists (Datatypes.S (Datatypes.S n)), m'. auto.
  - exists 1. eexists. cbn [aticks]. unfold atick. rewrite Hc. split; reflexivity.
Qed.

End Proofs.

(** ** Theorems *)

(** Any proper consumer reads the sequence of the producer: it ends with exactly the results that the specification gives,
    however often the producer or the consumer waits for events... *)
Theorem async_generator_reads {S V R} (step : S -> pout S V) s (c : client V R) r :
  proper NoIter c ->
  (exists n m, aticks step n (ainit s c) = Ok m /\ ctl m = CDone r) <-> reads step (UNew s) c r.
Proof.
  intros Hp. assert (P0 : pending (UNew s) (ainit s c)) by (cbn; auto). split.
  - intros (n & m & Hn & Hm). destruct (aticks_sim step n _ _ P0) as (u & m' & A1 & A2 & A3).
    assert (m' = m) by congruence. subst m'. apply (A3 r). unfold left_to. now rewrite Hm.
  - intros Hr. apply (reads_runs step _ _ _ Hr); [now cbn|reflexivity].
Qed.

(** ... and there is no undefined behaviour on the way. *)
Theorem async_generator_safe {S V R} (step : S -> pout S V) s (c : client V R) n :
  proper NoIter c -> exists m, aticks step n (ainit s c) = Ok m.
Proof.
  intros Hp. destruct (aticks_sim step n (UNew s) (ainit s c)) as (u & m' & A1 & _); [cbn; auto|eauto].
Qed.

(** The loop [for (it = co_await g.begin(); it != g.end(); co_await ++it) acc = f(acc, co_await event, *it)], left after [n] values;
    it returns what it has accumulated and how it ended. *)
Fixpoint loop_at {V A} (f : A -> V -> A) (n : nat) (acc : A) (i : ires) : client V (A * option ires) :=
  match i with
  | IAt =>
    match n with
    | 0 => KRet (acc, None)
    | Datatypes.S n' => KEvent (KDeref (fun v => KNext (loop_at f n' (f acc v))))
    end
  | _ => KRet (acc, Some i)
  end.

Definition loop {V A} (f : A -> V -> A) (n : nat) (acc : A) : client V (A * option ires) := KBegin (loop_at f n acc).

(** [sequence s vs i]: the producer yields [vs] and then has [i]. *)
Inductive sequence {S V} (step : S -> pout S V) : S -> list V -> item S V -> Prop :=
| SqEnd s i : pull step s i -> sequence step s [] i
| SqCons s v s' vs i : pull step s (VItem v s') -> sequence step s' vs i -> sequence step s (v :: vs) i.

Lemma loop_at_proper {V A} (f : A -> V -> A) n : forall acc i, proper (place_of i) (loop_at f n acc i).
Proof.
  induction n as [|n IH]; intros acc [| |e]; cbn [loop_at place_of proper]; auto 6.
Qed.

Lemma loop_reads {S V A} (step : S -> pout S V) (f : A -> V -> A) s vs i : sequence step s vs i -> forall acc n,
  length vs <= n -> (forall v s', i = VItem v s' -> n = length vs) ->
  exists j, pull step s j /\
  reads step (moved j) (loop_at f n acc (shown j))
    (fold_left f vs acc, match i with VItem _ _ => None | VEnd => Some IEnd | VExn e => Some (IExn e) end).
Proof.
  intros Hs. induction Hs as [s i Hp|s v s' vs i Hp Hs IH]; intros acc n Hn Hi.
  - exists i. split; auto. destruct i as [v s'| |e].
    + rewrite (Hi v s' eq_refl). cbn. constructor.
    + destruct n; cbn; constructor.
    + destruct n; cbn; constructor.
  - destruct n as [|n]; [simpl in Hn; lia|]. simpl in Hn.
    destruct (IH (f acc v) n ltac:(lia)) as (j & J1 & J2). { intros w t Hw. specialize (Hi w t Hw). simpl in Hi. lia. }
    exists (VItem v s'). split; auto. cbn [moved shown loop_at]. do 2 constructor. apply RdNext with j; auto.
Qed.

(** The loop over an asynchronous generator gets exactly the values of the producer, in order, and then its end or its
    exception; left after a number of values it has got the first ones. *)
Theorem async_generator_loop {S V A} (step : S -> pout S V) (f : A -> V -> A) s vs i acc n :
  sequence step s vs i -> length vs <= n -> (forall v s', i = VItem v s' -> n = length vs) ->
  exists k m, aticks step k (ainit s (loop f n acc)) = Ok m /\
    ctl m = CDone (fold_left f vs acc, match i with VItem _ _ => None | VEnd => Some IEnd | VExn e => Some (IExn e) end).
Proof.
  intros Hs Hn Hi. apply async_generator_reads.
  - cbn [loop proper]. split; auto. intros j. apply loop_at_proper.
  - destruct (loop_reads step f s vs i Hs acc n Hn Hi) as (j & J1 & J2). econstructor; eauto.
Qed.

(** A producer that waits for an event before every even number and throws at 4. *)
Definition demo_step (s : nat * bool) : pout (nat * bool) nat :=
  let (n, waited) := s in
  if Nat.even n && negb waited then AWait (n, true)
  else if n =? 4 then AThrow RuntimeError else AYield n (n + 1, false).

Definition ending {S V R} (r : res (amach S V R)) : option R := match r with Ok m => match ctl m with CDone x => Some x | _ => None end | _ => None end.

Example async_generator_example :
  sequence demo_step (1, false) [1; 2; 3] (VExn RuntimeError) /\
  ending (aticks demo_step 40 (ainit (1, false) (loop (fun l v => l ++ [v]) 10 []))) = Some ([1; 2; 3], Some (IExn RuntimeError)) /\
  ending (aticks demo_step 40 (ainit (1, false) (loop (fun l v => l ++ [v]) 2 []))) = Some ([1; 2], None).
Proof.
  split; [|split; reflexivity].
  eapply SqCons; [now apply PlYield|]. eapply SqCons; [eapply PlWait; [reflexivity|now apply PlYield]|].
  eapply SqCons; [now apply PlYield|]. apply SqEnd. eapply PlWait; [reflexivity|now apply PlExn].
Qed.

(** Calling begin() again does not return to the first value, it takes the next one. *)
Theorem async_generator_begin_again_refuted :
  exists (s : nat * bool), let c := KBegin (fun _ => KBegin (fun _ => KDeref (fun v => KRet v))) in
    ending (aticks demo_step 20 (ainit s c)) = Some 2 /\ exists s', pull demo_step s (VItem 1 s').
Proof. exists (1, false). split; [reflexivity|]. eexists. now apply PlYield. Qed.

(** begin() of a generator that is at its end is undefined behaviour. *)
Theorem async_generator_begin_finished_refuted :
  exists (s : nat * bool), aticks demo_step 20 (ainit s (KBegin (fun _ => KBegin (fun _ => KRet 0)))) = UB.
Proof. exists (4, false). reflexivity. Qed.
