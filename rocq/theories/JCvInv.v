(** Invariants of the model of condition_variable_any2 *)
From Coq Require Import ZifyBool ZifyNat.
From Verif Require Import Common JCvModel.

Definition hm (p : pc) : bool :=
  match p with WInlDo _ | WStop _ | WUnlock _ | WWait _ | WRead _ _ | WRelease _ _ _ | NDo _ | RDo _ => true | _ => false end.
Definition hl (p : pc) : bool :=
  match p with WCheck _ | WCtor _ | WInl _ | WInlDo _ | WPred _ | WLockM _ | WStop _ | WUnlock _ | WFinal _ | WDtor _ _ => true | _ => false end.
Definition nl (p : pc) : bool := match p with WWait _ | WBlocked _ | WTake _ _ | WRead _ _ | WRelease _ _ _ | WRelock _ _ _ => true | _ => false end.
Definition blocked (p : pc) : bool := match p with WBlocked _ => true | _ => false end.
Definition mode_of (p : pc) : option mode :=
  match p with
  | WCheck m | WCtor m | WInl m | WInlDo m | WPred m | WLockM m | WStop m | WUnlock m | WWait m | WBlocked m | WTake m _ | WRead m _ | WRelease m _ _ | WRelock m _ _
  | WFinal m | WDtor m _ => Some m
  | _ => None
  end.
Definition tokac (p : pc) : bool :=
  match p with
  | WPred m | WLockM m | WStop m | WUnlock m | WWait m | WBlocked m | WTake m _ | WRead m _ | WRelease m _ _ | WRelock m _ _ | WFinal m | WDtor m _ => tok m
  | _ => false
  end.
Definition target (p : pc) : option nat := match p with RLock c | RDo c | RFin c => Some c | _ => None end.
Definition calling (p : pc) : option nat := match p with RLock c | RDo c => Some c | _ => None end.
Definition active (p : pc) : bool := match p with RLoop | RLock _ | RDo _ | RFin _ => true | _ => false end.
Definition inl (p : pc) : bool := match p with WInl _ | WInlDo _ => true | _ => false end.
Definition toktok (p : pc) : bool := match p with WCtor m | WInl m | WInlDo m => tok m | _ => true end.

Section Inv.
Context {data : Type} (pr : nat -> data -> bool) (n : nat).
Notation state := (@state data).

Record invA (s : state) : Prop := InvA {
  a_m : forall x, hm (pcs s x) = true <-> mtx s = Some x;
  a_hl : forall x, hl (pcs s x) = true -> lock s = Some x;
  a_nl : forall x, nl (pcs s x) = true -> lock s <> Some x;
  a_wait : forall x, In x (waiting s) -> blocked (pcs s x) = true;
  a_out : forall x, n <= x -> pcs s x = PUser /\ lock s <> Some x;
  a_alive : forall x, uses_object (pcs s x) = true -> alive s = true;
  a_tok : forall x m, mode_of (pcs s x) = Some m -> prd m = false -> tok m = false;
  a_toktok : forall x, toktok (pcs s x) = true }.

Record invB (s : state) : Prop := InvB {
  b_reg : forall c, In c (reg s) -> tokac (pcs s c) = true /\ fin s c = false;
  b_nodup : NoDup (reg s);
  b_exec : forall u c, target (pcs s u) = Some c -> tokac (pcs s c) = true /\ ~ In c (reg s) /\ fin s c = false;
  b_one : forall u v, active (pcs s u) = true -> active (pcs s v) = true -> u = v;
  b_stop : forall u, active (pcs s u) = true -> stop s = true;
  b_fin : forall c, fin s c = true -> stop s = true;
  b_inl : forall x, inl (pcs s x) = true -> stop s = true;
  b_pend : stop s = true -> reg s <> [] -> exists u, active (pcs s u) = true;
  b_cb : forall x, tokac (pcs s x) = true -> In x (reg s) \/ fin s x = true \/ exists u, target (pcs s u) = Some x;
  b_done : forall u, In (EReq u true) (log s) -> stop s = true /\ forall v, active (pcs s v) = false }.

Lemma upd_cases : forall {A} (f : nat -> A) t v x, (x = t /\ upd f t v x = v) \/ (x <> t /\ upd f t v x = f x).
Proof. intros A f t v x. destruct (Nat.eq_dec x t) as [->|E]; [left; split; [easy|apply upd_eq]|right; split; [easy|now apply upd_neq]]. Qed.

Lemma in_del : forall x t l, In x (del t l) <-> In x l /\ x <> t.
Proof.
  intros x t l. unfold del. rewrite filter_In, Bool.negb_true_iff, Nat.eqb_neq. easy.
Qed.
Lemma mem_in : forall t l, mem t l = true <-> In t l.
Proof.
  intros t l. unfold mem. rewrite existsb_exists. split.
  - intros (x & Hx & E). apply Nat.eqb_eq in E. now subst.
  - intros H. exists t. split; [easy|apply Nat.eqb_refl].
Qed.
Lemma mem_out : forall t l, mem t l = false <-> ~ In t l.
Proof. intros t l. rewrite <- mem_in. destruct (mem t l); split; congruence. Qed.
Lemma nodup_del : forall t l, NoDup l -> NoDup (del t l).
Proof. intros t l H. now apply NoDup_filter. Qed.

End Inv.

Ltac proj := cbn [mtx lock waiting stop reg fin dat pcs alive expired log] in *.
Ltac unf := unfold ret, note, go, set_mtx, set_lock, set_waiting, set_stop, set_reg, set_fin, set_dat, kill, set_expired in *; proj.
(** All the cases of a step *)
Ltac split_step H :=
  unfold step in H;
  let G := fresh "Lt" in
  match type of H with (if ?b then _ else _) = _ => destruct b eqn:G; [apply Nat.ltb_lt in G|discriminate H] end;
  let P := fresh "P" in
  match type of H with match pcs ?s ?t with _ => _ end = _ => destruct (pcs s t) eqn:P end;
  match type of H with
  | user_step _ _ ?a _ = _ => destruct a; cbn [user_step] in H; try discriminate H
  | lib_step _ _ ?a _ _ = _ => destruct a; cbn [lib_step] in H; try discriminate H
  end;
  unfold acquire in H;
  repeat match type of H with
  | None = Some _ => discriminate H
  | Some UB = Some (Ok _) => discriminate H
  | Some (Throw _) = Some (Ok _) => discriminate H
  | Some (guard ?b _) = _ => let E := fresh "E" in destruct b eqn:E; cbn [guard] in H
  | context [if ?b then _ else _] => let E := fresh "E" in destruct b eqn:E
  | context [match ?b with _ => _ end] => let E := fresh "E" in destruct b eqn:E
  end;
  injection H; clear H; intro H; subst;
  repeat match goal with
  | E : _ && _ = true |- _ => apply andb_prop in E; destruct E
  | E : match lock ?s with Some _ => _ | None => false end = true |- _ => let L := fresh "L" in destruct (lock s) eqn:L; [|discriminate E]
  end;
  repeat match goal with E : (_ =? _) = true |- _ => apply Nat.eqb_eq in E; subst | E : _ && _ = true |- _ => apply andb_prop in E; destruct E end;
  unf.

Arguments del : simpl never.
Arguments mem : simpl never.
Section InvA.
Context {data : Type} (pr : nat -> data -> bool) (n : nat).
Notation state := (@state data).

Lemma invA_init : forall d : data, invA n (init d).
Proof. intros d. constructor; unfold init; proj; cbn; try easy; intros; split; easy. Qed.

Ltac base P := cbn [hm hl nl blocked uses_object mode_of toktok tokac target calling active inl] in *; try rewrite P in *; cbn [hm hl nl blocked uses_object mode_of toktok tokac target calling active inl] in *.
Ltac xcase x t := destruct (Nat.eq_dec x t) as [->|]; [rewrite ?upd_eq|rewrite ?upd_neq by easy].

Section Step.
Context (t : nat) (a : @action data) (s s' : state) (x : nat) (H : step pr n t a s = Some (Ok s')).
Lemma a_m_step : (forall x, hm (pcs s x) = true <-> mtx s = Some x) -> hm (pcs s' x) = true <-> mtx s' = Some x.
Proof.
  intros M. pose proof (M t) as Mt. pose proof (M x) as Mx. clear M.
  split_step H; xcase x t; base P; try easy; intuition congruence.
Qed.
Lemma a_hl_step : (forall x, hl (pcs s x) = true -> lock s = Some x) -> (forall x, nl (pcs s x) = true -> lock s <> Some x) -> hl (pcs s' x) = true -> lock s' = Some x.
Proof.
  intros M N. pose proof (M t) as Mt. pose proof (M x) as Mx. pose proof (N x) as Nx. clear M N.
  split_step H; xcase x t; base P; try easy; intuition congruence.
Qed.
Lemma a_nl_step : (forall x, hl (pcs s x) = true -> lock s = Some x) -> (forall x, nl (pcs s x) = true -> lock s <> Some x) -> nl (pcs s' x) = true -> lock s' <> Some x.
Proof.
  intros M N. pose proof (M t) as Mt. pose proof (N t) as Nt. pose proof (N x) as Nx. clear M N.
  split_step H; xcase x t; base P; try easy; intuition congruence.
Qed.
Lemma a_wait_step : (forall x, In x (waiting s) -> blocked (pcs s x) = true) -> In x (waiting s') -> blocked (pcs s' x) = true.
Proof.
  intros M. pose proof (M t) as Mt. pose proof (M x) as Mx. clear M.
  split_step H; rewrite ?in_del; xcase x t; base P; try easy; rewrite ?mem_out in *; try match goal with E : waiting _ = _ |- _ => rewrite E end; cbn [In]; intuition congruence.
Qed.
Lemma a_out_step : (forall x, n <= x -> pcs s x = PUser /\ lock s <> Some x) -> n <= x -> pcs s' x = PUser /\ lock s' <> Some x.
Proof.
  intros M G. destruct (M x G) as (M1 & M2). clear M.
  assert (x <> t) by (unfold step in H; destruct (t <? n) eqn:E; [lia|discriminate]).
  split_step H; rewrite ?upd_neq by easy; split; congruence.
Qed.
Lemma a_alive_step : (forall x, n <= x -> pcs s x = PUser /\ lock s <> Some x) ->
  (forall x, uses_object (pcs s x) = true -> alive s = true) -> uses_object (pcs s' x) = true -> alive s' = true.
Proof.
  intros O M. pose proof (O x) as Ox. pose proof (M t) as Mt. pose proof (M x) as Mx. clear M O.
  split_step H; xcase x t; base P; try easy; try (intuition congruence).
  intros Hx. destruct (Nat.lt_ge_cases x n) as [Lx|Lx]; [|destruct (Ox Lx) as (Q & _); rewrite Q in Hx; discriminate Hx].
    match goal with G : forallb _ _ = true |- _ => rewrite forallb_forall in G; specialize (G x ltac:(apply in_seq; lia)); rewrite Hx in G end. easy.
Qed.
Lemma a_tok_step : (forall x m, mode_of (pcs s x) = Some m -> prd m = false -> tok m = false) -> forall m, mode_of (pcs s' x) = Some m -> prd m = false -> tok m = false.
Proof.
  intros M. pose proof (M t) as Mt. pose proof (M x) as Mx. clear M.
  split_step H; xcase x t; base P; try easy; try (intuition congruence).
  all: intros m' [= <-] K; rewrite K in *; destruct (tok m); easy.
Qed.
Lemma a_toktok_step : (forall x, toktok (pcs s x) = true) -> toktok (pcs s' x) = true.
Proof.
  intros M. pose proof (M t) as Mt. pose proof (M x) as Mx. clear M.
  split_step H; xcase x t; base P; try easy; try (intuition congruence).
Qed.
End Step.
Lemma invA_step : forall t a (s s' : state), invA n s -> step pr n t a s = Some (Ok s') -> invA n s'.
Proof.
  intros t a s s' [M HL NL W O AL TK TT] H. constructor.
  - intros x. now apply (a_m_step t a s).
  - intros x. now apply (a_hl_step t a s).
  - intros x. now apply (a_nl_step t a s).
  - intros x. now apply (a_wait_step t a s).
  - intros x. now apply (a_out_step t a s).
  - intros x. now apply (a_alive_step t a s).
  - intros x. now apply (a_tok_step t a s).
  - intros x. now apply (a_toktok_step t a s).
Qed.
End InvA.
