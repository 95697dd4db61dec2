(** An abstract form of the machine of JStopModel: the word is two flags and two counters,
    the intrusive list is a list.  For the proofs only; JStopRefine shows that each step of
    the machine is a step of this one. *)
From Coq Require Import ZifyBool ZifyNat.
From Verif Require Import Common JStopModel JStopSpec JStopWord.

Definition tot (n : nat) (p : frame -> bool) (k : nat -> list frame) : nat := sum (fun t => countf p (k t)) n.
Record acb := Acb { a_rem : bool; a_fin : bool; a_st : bool; a_life : life; a_ref : bool }.
Record ast := Ast { sp : bool; lk : bool; lst : list nat; sig : option nat; ob : nat -> acb; num : nat; stk : nat -> list frame;
                    tk : nat; sr : nat; fr : bool; lg : list event }.
Definition refs (o : nat -> acb) (k : nat) : nat := sum (fun c => Nat.b2n (a_ref (o c))) k.

Definition s_stk (a : ast) t l := Ast (sp a) (lk a) (lst a) (sig a) (ob a) (num a) (upd (stk a) t l) (tk a) (sr a) (fr a) (lg a).
Definition s_lk (a : ast) b := Ast (sp a) b (lst a) (sig a) (ob a) (num a) (stk a) (tk a) (sr a) (fr a) (lg a).
Definition s_sp (a : ast) b := Ast b (lk a) (lst a) (sig a) (ob a) (num a) (stk a) (tk a) (sr a) (fr a) (lg a).
Definition s_lst (a : ast) l := Ast (sp a) (lk a) l (sig a) (ob a) (num a) (stk a) (tk a) (sr a) (fr a) (lg a).
Definition s_sig (a : ast) t := Ast (sp a) (lk a) (lst a) (Some t) (ob a) (num a) (stk a) (tk a) (sr a) (fr a) (lg a).
Definition s_ob (a : ast) c x := Ast (sp a) (lk a) (lst a) (sig a) (upd (ob a) c x) (num a) (stk a) (tk a) (sr a) (fr a) (lg a).
Definition s_objs (a : ast) x y := Ast (sp a) (lk a) (lst a) (sig a) (ob a) (num a) (stk a) x y (fr a) (lg a).
Definition s_num (a : ast) x := Ast (sp a) (lk a) (lst a) (sig a) (ob a) x (stk a) (tk a) (sr a) (fr a) (lg a).
Definition s_lg (a : ast) e := Ast (sp a) (lk a) (lst a) (sig a) (ob a) (num a) (stk a) (tk a) (sr a) (fr a) (lg a ++ [e]).
(** the state is deleted if nothing refers to it *)
Definition s_fr (a : ast) := Ast (sp a) (lk a) (lst a) (sig a) (ob a) (num a) (stk a) (tk a) (sr a)
                                 (fr a || (Nat.eqb (tk a) 0 && Nat.eqb (sr a) 0 && Nat.eqb (refs (ob a) (num a)) 0)) (lg a).
Definition o_rem x b := Acb b (a_fin x) (a_st x) (a_life x) (a_ref x).
Definition o_fin x := Acb false true (a_st x) (a_life x) (a_ref x).
Definition o_ref x := Acb (a_rem x) (a_fin x) (a_st x) (a_life x) true.
Definition o_add x b := Acb (a_rem x) (a_fin x) b LAlive (a_ref x).
Definition o_dying x := Acb (a_rem x) (a_fin x) (a_st x) LDying (a_ref x).
Definition o_gone x := Acb (a_rem x) (a_fin x) (a_st x) LGone false.
Definition o_new := Acb false false false LBuild false.

(** Frames between which a thread goes when it waits for the lock *)
Definition fresh (a : ast) (w : Z) : Prop := is_stop_requested w = sp a /\ is_requestable w = (sp a || (1 <=? sr a)).
Inductive ctl (a : ast) : frame -> frame -> Prop :=
| ctl_req w : fresh a w -> ctl a FReq (FReqCas w)
| ctl_req1 o : is_stop_requested o = false -> ctl a (FReqCas o) FReq
| ctl_req2 o w : fresh a w -> ctl a (FReqCas o) (FReqCas w)
| ctl_lock w : ctl a FReqLock (FReqLockCas w)
| ctl_lock1 o : ctl a (FReqLockCas o) FReqLock
| ctl_lock2 o w : ctl a (FReqLockCas o) (FReqLockCas w)
| ctl_add c mv w : fresh a w -> ctl a (FAdd c mv) (FAddChk c mv w)
| ctl_add1 c mv o : ctl a (FAddChk c mv o) (FAdd c mv)
| ctl_add2 c mv o w : fresh a w -> ctl a (FAddChk c mv o) (FAddChk c mv w)
| ctl_rm c w : ctl a (FRm c) (FRmCas c w)
| ctl_rm1 c o : ctl a (FRmCas c o) (FRm c)
| ctl_rm2 c o w : ctl a (FRmCas c o) (FRmCas c w)
| ctl_spin c : ctl a (FRmSpin c) (FRmSpin c).

Section Threads.
Context (n : nat).
Definition movg (a : ast) : nat := tot n (in_add true) (stk a).
Definition bsy (a : ast) : nat := (movg a + if Nat.eqb (tot n (in_add false) (stk a)) 0 then 0 else 1)%nat.
Definition isnil {A} (l : list A) : bool := match l with [] => true | _ => false end.

(** A step of the function at the top of the stack; [st]: the rest of the stack *)
Inductive lstep (t : nat) (a : ast) (st : list frame) : frame -> ast -> Prop :=
| l_ctl f f' : ctl a f f' -> lstep t a st f (s_stk a t (f' :: st))
| l_signal o : sp a = false -> lk a = false -> lstep t a st (FReqCas o) (s_lg (s_stk (s_lk (s_sp a true) true) t (FReqSet :: st)) (ESignal t))
| l_false o : is_stop_requested o = true -> lstep t a st (FReqCas o) (s_lg (s_stk a t st) (EReq t false))
| l_set : lstep t a st FReqSet (s_stk (s_sig a t) t (FReqLoop :: st))
| l_end : lst a = [] -> lstep t a st FReqLoop (s_lg (s_stk (s_lk a false) t st) (EReq t true))
| l_pop c l : lst a = c :: l -> lstep t a st FReqLoop (s_stk (s_lk (s_lst a l) false) t (FReqRun c (negb (isnil l)) :: st))
| l_run c m : lstep t a st (FReqRun c m) (s_lg (s_stk (s_ob a c (o_rem (ob a c) true)) t (FUser :: FReqBody c m false :: st)) (EBegin c t))
| l_body c r : lstep t a st (FReqBody c true r) (s_stk (if r then a else s_ob a c (o_fin (ob a c))) t (FReqLock :: st))
| l_last c r : lstep t a st (FReqBody c false r) (s_lg (s_stk (if r then a else s_ob a c (o_fin (ob a c))) t st) (EReq t true))
| l_relock o : lk a = false -> lstep t a st (FReqLockCas o) (s_stk (s_lk a true) t (FReqLoop :: st))
| l_inline c mv o : is_stop_requested o = true -> lstep t a st (FAddChk c mv o) (s_lg (s_stk a t (FUser :: FAddInl c mv :: st)) (EBegin c t))
| l_dead c mv o : is_requestable o = false -> lstep t a st (FAddChk c mv o) (s_stk a t (FAddRet c false :: st))
| l_addlock c mv o : sp a = false -> lk a = false -> lstep t a st (FAddChk c mv o) (s_stk (s_lk a true) t (FAddPush c mv :: st))
| l_push c mv : lstep t a st (FAddPush c mv)
    (s_stk (s_lk (s_objs (s_lst (s_ob a c (o_ref (ob a c))) (c :: lst a)) (if mv then tk a - 1 else tk a) (sr a)) false) t (FAddRet c true :: st))
| l_inlret c mv : lstep t a st (FAddInl c mv) (s_stk a t (FAddRet c false :: st))
| l_added c ok : lstep t a st (FAddRet c ok) (s_lg (s_stk (s_ob a c (o_add (ob a c) ok)) t st) (EAdd c t))
| l_rmlock c o : lk a = false -> lstep t a st (FRmCas c o) (s_stk (s_lk a true) t (FRmBody c :: st))
| l_unlink c l1 l2 : lst a = l1 ++ c :: l2 ->
    lstep t a st (FRmBody c) (s_lg (s_stk (s_fr (s_lk (s_lst (s_ob a c (o_gone (ob a c))) (l1 ++ l2)) false)) t st) (EGone c t))
| l_called c : ~ In c (lst a) -> lstep t a st (FRmBody c) (s_stk (s_lk a false) t (FRmCheck c :: st))
| l_self c : sig a = Some t -> lstep t a st (FRmCheck c) (s_stk a t (FRmDrop c :: if a_rem (ob a c) then set_removed c st else st))
| l_other c : sig a <> Some t -> lstep t a st (FRmCheck c) (s_stk a t (FRmSpin c :: st))
| l_spun c : a_fin (ob a c) = true -> lstep t a st (FRmSpin c) (s_stk a t (FRmDrop c :: st))
| l_drop c : lstep t a st (FRmDrop c) (s_lg (s_stk (s_fr (s_ob a c (o_gone (ob a c)))) t st) (EGone c t)).

(** A step of user code *)
Inductive ustep (t : nat) (a : ast) (st : list frame) : ast -> Prop :=
| u_token : (1 <= sr a \/ movg a < tk a) -> fits (S (tk a + num a)) 0 -> ustep t a st (s_objs a (S (tk a)) (sr a))
| u_untoken : bsy a < tk a -> ustep t a st (s_fr (s_objs a (tk a - 1) (sr a)))
| u_source : 1 <= sr a -> fits 0 (S (sr a)) -> ustep t a st (s_objs a (tk a) (S (sr a)))
| u_unsource : (2 <= sr a \/ 1 <= sr a /\ tot n in_req (stk a) = 0) -> ustep t a st (s_fr (s_objs a (tk a) (sr a - 1)))
| u_query : ustep t a st (s_lg a (EQuery t (sp a)))
| u_possible : ustep t a st (s_lg a (EPossible t (sp a || (1 <=? sr a))))
| u_request : 1 <= sr a -> ustep t a st (s_stk a t (FReq :: FUser :: st))
| u_construct (mv : bool) : (if mv then bsy a < tk a else movg a < tk a) -> fits (S (tk a + num a)) 0 ->
    ustep t a st (s_lg (s_stk (s_num (s_ob a (num a) o_new) (S (num a))) t (FAdd (num a) mv :: FUser :: st)) (ENew (num a) t))
| u_destroy c : a_life (ob a c) = LAlive -> c < num a -> a_st (ob a c) = true ->
    ustep t a st (s_stk (s_lg (s_ob a c (o_dying (ob a c))) (EDying c t)) t (FRm c :: FUser :: st))
| u_drop c : a_life (ob a c) = LAlive -> c < num a -> a_st (ob a c) = false ->
    ustep t a st (s_lg (s_lg (s_ob a c (o_gone (ob a c))) (EDying c t)) (EGone c t))
| u_body c m r st' : st = FReqBody c m r :: st' -> ustep t a st (s_lg (s_stk a t st) (EEnd c t))
| u_inl c mv st' : st = FAddInl c mv :: st' -> ustep t a st (s_lg (s_stk a t st) (EEnd c t)).

Inductive astep (a : ast) : ast -> Prop :=
| a_lib t f st a' : t < n -> stk a t = f :: st -> lstep t a st f a' -> astep a a'
| a_user t st a' : t < n -> stk a t = FUser :: st -> ustep t a st a' -> astep a a'.
End Threads.

(** ** Lemmas on stacks *)
Lemma tot_upd n p k t l : t < n -> tot n p (upd k t l) + countf p (k t) = tot n p k + countf p l.
Proof.
  intros H. unfold tot. pose proof (sum_upd (fun u => countf p (k u)) (fun u => countf p (upd k t l u)) t n H) as E.
  cbn beta in E. rewrite upd_eq in E. apply E. intros j Hj. now rewrite upd_neq.
Qed.
Lemma countf_cons p f l : countf p (f :: l) = Nat.b2n (p f) + countf p l.
Proof. unfold countf. cbn [filter]. destruct (p f); reflexivity. Qed.
Lemma tot_in n p k t f : t < n -> In f (k t) -> p f = true -> 1 <= tot n p k.
Proof. intros H Hf E. unfold tot. pose proof (sum_ge (fun u => countf p (k u)) t n H). pose proof (countf_in p _ _ Hf E). cbn beta in *. lia. Qed.
Lemma tot_pos n p k : 1 <= tot n p k -> exists t f, t < n /\ In f (k t) /\ p f = true.
Proof. intros H. destruct (sum_pos _ _ H) as (t & Ht & H'). destruct (countf_pos _ _ H') as (f & ? & ?). now exists t, f. Qed.
Lemma tot_le n (p q : frame -> bool) k : (forall f, p f = true -> q f = true) -> tot n p k <= tot n q k.
Proof.
  intros H. unfold tot. induction n as [|m IH]; cbn [sum]; [lia|].
  assert (countf p (k m) <= countf q (k m)); [|lia].
  induction (k m) as [|f l IHl]; [reflexivity|]. rewrite !countf_cons. specialize (H f). destruct (p f), (q f); cbn [Nat.b2n]; lia.
Qed.
(** A frame that is not the top frame of [t] *)
Definition oth (k : nat -> list frame) (t : nat) (st : list frame) (u : nat) (f : frame) : Prop :=
  (u <> t /\ In f (k u)) \/ (u = t /\ In f st).
Lemma in_upd k t fs st u f : In f (upd k t (fs ++ st) u) -> (u = t /\ In f fs) \/ oth k t st u f.
Proof.
  unfold oth. destruct (Nat.eq_dec u t) as [->|N].
  - rewrite upd_eq. intros H. apply in_app_or in H. tauto.
  - rewrite upd_neq by exact N. tauto.
Qed.
Lemma oth_upd k t fs st u f : oth k t st u f -> In f (upd k t (fs ++ st) u).
Proof.
  intros [[N H]|[-> H]]; [now rewrite upd_neq|]. rewrite upd_eq. apply in_or_app. now right.
Qed.
Lemma oth_in k t f0 st u f : k t = f0 :: st -> oth k t st u f -> In f (k u).
Proof. intros E [[N H]|[-> H]]; [exact H|]. rewrite E. now right. Qed.
Lemma in_oth k t f0 st u f : k t = f0 :: st -> In f (k u) -> (u = t /\ f = f0) \/ oth k t st u f.
Proof.
  intros E H. unfold oth. destruct (Nat.eq_dec u t) as [->|N]; [|tauto]. rewrite E in H. destruct H as [<-|H]; tauto.
Qed.
(** If at most one frame satisfies [p] and the top frame does, no other one does. *)
Lemma oth_uniq n p k t f0 st u f : t < n -> u < n -> k t = f0 :: st -> tot n p k <= 1 -> p f0 = true -> oth k t st u f -> p f = false.
Proof.
  intros Ht Hu E H1 H0 [[N H]|[-> H]]; destruct (p f) eqn:Q; try reflexivity; exfalso.
  - pose proof (sum_ge2 (fun v => countf p (k v)) u t n Hu Ht N) as G. cbn beta in G.
    pose proof (countf_in p _ _ H Q). rewrite E in G. rewrite countf_cons, H0 in G. cbn [Nat.b2n] in G. unfold tot in H1. lia.
  - pose proof (sum_ge (fun v => countf p (k v)) t n Ht) as G. cbn beta in G. rewrite E, countf_cons, H0 in G. cbn [Nat.b2n] in G.
    pose proof (countf_in p _ _ H Q). unfold tot in H1. lia.
Qed.
Lemma countf_removed p c l : (forall d m, p (FReqBody d m true) = p (FReqBody d m false)) -> countf p (set_removed c l) = countf p l.
Proof.
  intros H. unfold set_removed. induction l as [|f l IH]; [reflexivity|]. cbn [map]. rewrite !countf_cons, IH. f_equal. f_equal.
  destruct f; try reflexivity. destruct (Nat.eqb c0 c); [|reflexivity]. destruct removed; [reflexivity|apply H].
Qed.
Lemma in_removed c l f : In f (set_removed c l) -> (In f l /\ (forall m r, f = FReqBody c m r -> r = true)) \/ exists m, f = FReqBody c m true /\ In (FReqBody c m false) l.
Proof.
  unfold set_removed. intros H. apply in_map_iff in H as (g & E & H).
  destruct g; try (left; subst f; split; [exact H|congruence]).
  destruct (Nat.eqb_spec c0 c) as [->|N].
  - destruct removed; [left; subst f; split; [exact H|congruence]|]. right. exists more. now split.
  - left. subst f. split; [exact H|congruence].
Qed.
Lemma removed_in c l f : In f l -> (forall m, f <> FReqBody c m false) -> In f (set_removed c l).
Proof.
  intros H N. unfold set_removed. apply in_map_iff. exists f. split; [|exact H].
  destruct f; try reflexivity. destruct (Nat.eqb_spec c0 c) as [->|]; [|reflexivity]. destruct removed; [reflexivity|]. now destruct (N more).
Qed.
