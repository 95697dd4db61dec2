(** Invariants of the abstract machine. *)
From Coq Require Import ZifyBool ZifyNat.
From Verif Require Import Common JStopModel JStopSpec JStopWord JStopAbs.

(** A stack whose top is user code *)
Inductive wfu : list frame -> Prop :=
| wf_nil : wfu [FUser]
| wf_body c m r st : wfu st -> wfu (FUser :: FReqBody c m r :: st)
| wf_inl c mv st : wfu st -> wfu (FUser :: FAddInl c mv :: st).
Definition wfs (l : list frame) : Prop := wfu l \/ exists f st, f <> FUser /\ l = f :: st /\ wfu st.
Lemma wfu_removed c l : wfu l -> wfu (set_removed c l).
Proof. intros H. induction H; cbn; try constructor; try assumption. destruct (Nat.eqb c0 c); now constructor. Qed.
Lemma wfs_lib f st : wfs (f :: st) -> f <> FUser -> wfu st.
Proof. intros [H|(g & r & N & E & H)] Hf; [inversion H; congruence|]. now injection E as <- <-. Qed.
Lemma wfs_user st : wfs (FUser :: st) -> wfu (FUser :: st).
Proof. intros [H|(g & r & N & E & H)]; [exact H|]. now injection E as <- <-. Qed.
Lemma wfs_push f st : f <> FUser -> wfu st -> wfs (f :: st).
Proof. intros. right. now exists f, st. Qed.
Definition holds (f : frame) : bool := match f with FReqSet | FReqLoop | FAddPush _ _ | FRmBody _ => true | _ => false end.
Definition winner (f : frame) : bool :=
  match f with FReqSet | FReqLoop | FReqRun _ _ | FReqBody _ _ _ | FReqLock | FReqLockCas _ => true | _ => false end.
Definition is_push (f : frame) : bool := match f with FAddPush _ _ => true | _ => false end.
Definition is_ctor (c : nat) (f : frame) : bool :=
  match f with FAdd d _ | FAddChk d _ _ | FAddPush d _ | FAddInl d _ | FAddRet d _ => Nat.eqb d c | _ => false end.
Definition is_rm (c : nat) (f : frame) : bool :=
  match f with FRm d | FRmCas d _ | FRmBody d | FRmCheck d | FRmSpin d | FRmDrop d => Nat.eqb d c | _ => false end.
Definition is_true_req (e : event) : bool := match e with EReq _ true => true | _ => false end.
Definition nreq (h : list event) : nat := length (filter is_true_req h).
Lemma nreq_snoc h e : nreq (h ++ [e]) = nreq h + Nat.b2n (is_true_req e).
Proof. unfold nreq. rewrite filter_app, app_length. f_equal. cbn [filter]. destruct (is_true_req e); reflexivity. Qed.

Section Threads.
Context (n : nat).

(** ** Counts *)
Record inv1 (a : ast) : Prop := {
  i_shape : forall u, wfs (stk a u);
  i_out : forall u, n <= u -> stk a u = [FUser];
  i_lock : tot n holds (stk a) = Nat.b2n (lk a);
  i_push : 1 <= tot n is_push (stk a) -> sp a = false;
  i_win : tot n winner (stk a) + nreq (lg a) = Nat.b2n (sp a);
  i_sig : sp a = false -> sig a = None;
  i_use : bsy n a <= tk a;
  i_src : 1 <= tot n in_req (stk a) -> 1 <= sr a
}.

Ltac proj := cbn [sp lk lst sig ob num stk tk sr fr lg s_stk s_lk s_sp s_lst s_sig s_ob s_objs s_num s_lg s_fr] in *.
Ltac tots Ht Est :=
  repeat match goal with |- context [tot n ?p (upd ?k ?t ?l)] =>
    let E := fresh "E" in pose proof (tot_upd n p k t l Ht) as E; rewrite Est in E; generalize dependent (tot n p (upd k t l)); intros end;
  rewrite ?countf_cons, ?countf_removed in * by reflexivity;
  cbn [holds winner is_push in_req in_add Nat.b2n is_true_req] in *.

Lemma inv1_lib t f st a a' : t < n -> stk a t = f :: st -> inv1 a -> lstep t a st f a' -> inv1 a'.
Proof.
  intros Ht Est I H.
  destruct I as [Hsh Hout Hlock Hpush Hwin Hsig Huse Hsrc].
  assert (Hle : tot n is_push (stk a) <= tot n holds (stk a)) by (apply tot_le; intros []; cbn; congruence).
  assert (Hst : wfu st).
  { eapply wfs_lib; [rewrite <- Est; apply Hsh|]. intros ->. inversion H. inversion H0. }
  pose proof (fun c => wfu_removed c st Hst) as Hstr.
  assert (Hne : forall u, n <= u -> u <> t) by lia.
  unfold bsy, movg in *.
  inversion H as [? ? Hc | | | | | | | | | | | | | | | | | | | | | | ]; subst; try (inversion Hc; subst); clear H;
    repeat match goal with mv : bool |- _ => destruct mv end;
    try match goal with |- context [if a_rem ?x then _ else _] => destruct (a_rem x) end;
    (constructor; proj;
     [ intros u; destruct (Nat.eq_dec u t) as [->|Nu]; [rewrite upd_eq|rewrite upd_neq by exact Nu; apply Hsh];
       first [left; exact Hst | apply wfs_push; [discriminate|first [exact Hst|apply Hstr]] | left; now constructor]
     | intros u Hu; rewrite upd_neq by auto; auto
     | tots Ht Est; try lia
     | tots Ht Est; try lia
     | rewrite ?nreq_snoc; tots Ht Est; try lia
     | try assumption; try (intros; discriminate)
     | unfold bsy, movg; proj; tots Ht Est; repeat match goal with |- context [Nat.eqb ?x ?y] => destruct (Nat.eqb_spec x y) | H : context [Nat.eqb ?x ?y] |- _ => destruct (Nat.eqb_spec x y) end; try lia
     | tots Ht Est; try lia ]).
  intros Z. pose proof (tot_in n winner (stk a) t FReqSet Ht ltac:(rewrite Est; now left) eq_refl). rewrite Z in *. cbn in *. lia.
Qed.

Lemma inv1_user t st a a' : t < n -> stk a t = FUser :: st -> inv1 a -> ustep n t a st a' -> inv1 a'.
Proof.
  intros Ht Est I H.
  destruct I as [Hsh Hout Hlock Hpush Hwin Hsig Huse Hsrc].
  assert (Hst : wfu (FUser :: st)) by (apply wfs_user; rewrite <- Est; apply Hsh).
  assert (Hne : forall u, n <= u -> u <> t) by lia.
  unfold bsy, movg in *.
  assert (Hs2 : st = [] \/ wfu (tl st)) by (inversion Hst; subst; auto).
  inversion H; subst; clear H; unfold bsy, movg in *;
    repeat match goal with mv : bool |- _ => destruct mv end;
    (constructor; proj;
     [ first [exact Hsh | intros u; destruct (Nat.eq_dec u t) as [->|Nu]; [rewrite upd_eq|rewrite upd_neq by exact Nu; apply Hsh];
         apply wfs_push; [discriminate|first [exact Hst|destruct Hs2; [discriminate|assumption]]]]
     | first [exact Hout | intros u Hu; rewrite upd_neq by auto; auto]
     | tots Ht Est; try lia
     | tots Ht Est; try lia
     | rewrite ?nreq_snoc; tots Ht Est; try lia
     | try assumption; try (intros; discriminate)
     | unfold bsy, movg; proj; tots Ht Est; repeat match goal with |- context [Nat.eqb ?x ?y] => destruct (Nat.eqb_spec x y) | H : context [Nat.eqb ?x ?y] |- _ => destruct (Nat.eqb_spec x y) end; try lia
     | tots Ht Est; try lia ]).
  all: idtac.
Qed.

(** ** Frames and callbacks *)
Definition fcb (f : frame) : option nat :=
  match f with
  | FReqRun c _ | FReqBody c _ _ | FAdd c _ | FAddChk c _ _ | FAddPush c _ | FAddInl c _ | FAddRet c _
  | FRm c | FRmCas c _ | FRmBody c | FRmCheck c | FRmSpin c | FRmDrop c => Some c
  | _ => None
  end.
Definition Jw (a : ast) (u : nat) (f : frame) : Prop :=
  match f with
  | FReqLoop | FReqLock | FReqLockCas _ => sig a = Some u
  | FReqRun _ m | FReqBody _ m _ => sig a = Some u /\ (m = false -> lst a = [])
  | FReqCas o => is_stop_requested o = true -> sp a = true
  | FAddChk _ _ o => (is_stop_requested o = true -> sp a = true) /\ (is_requestable o = false -> sp a = false /\ sr a = 0)
  | FRmSpin _ => sig a <> Some u
  | _ => True
  end.
Definition JC (x : acb) (inl beg : Prop) (f : frame) : Prop :=
  match f with
  | FReqRun _ _ => a_ref x = true /\ a_life x <> LGone /\ a_fin x = false /\ ~ inl /\ ~ beg
  | FReqBody _ _ false => a_ref x = true /\ a_life x <> LGone /\ a_fin x = false /\ a_rem x = true /\ ~ inl /\ beg
  | FReqBody _ _ true => ~ inl /\ beg
  | FAdd _ _ | FAddChk _ _ _ | FAddPush _ _ => a_life x = LBuild /\ a_ref x = false /\ a_fin x = false /\ a_rem x = false /\ ~ inl /\ ~ beg
  | FAddInl _ _ => a_life x = LBuild /\ a_ref x = false /\ ~ inl /\ beg
  | FAddRet _ ok => a_life x = LBuild /\ a_ref x = ok /\ (ok = false -> ~ inl)
  | FRm _ | FRmCas _ _ | FRmBody _ => a_life x = LDying /\ a_ref x = true
  | FRmCheck _ | FRmSpin _ | FRmDrop _ => a_life x = LDying /\ a_ref x = true /\ ~ inl
  | _ => True
  end.
Definition J (a : ast) (u : nat) (f : frame) : Prop :=
  Jw a u f /\ match fcb f with Some c => c < num a /\ JC (ob a c) (In c (lst a)) (begun c (lg a)) f | None => True end.
(** A callback that request_stop() has taken from the list and has not marked as finished *)
Definition execf (c : nat) (f : frame) : Prop := match f with FReqRun d _ | FReqBody d _ false => d = c | _ => False end.

Record inv2 (a : ast) : Prop := {
  j_fr : forall u f, In f (stk a u) -> J a u f;
  j_ctor : forall c, tot n (is_ctor c) (stk a) <= 1;
  j_rm : forall c, tot n (is_rm c) (stk a) <= 1;
  j_nodup : NoDup (lst a);
  j_lst : forall c, In c (lst a) -> c < num a /\ a_ref (ob a c) = true /\ a_fin (ob a c) = false /\ a_rem (ob a c) = false /\ a_life (ob a c) <> LGone /\ ~ begun c (lg a);
  j_empty : sp a = true -> tot n winner (stk a) = 0 -> lst a = [];
  j_alive : forall c, c < num a -> a_life (ob a c) = LAlive -> a_st (ob a c) = a_ref (ob a c);
  j_gone : forall c, c < num a -> a_life (ob a c) = LGone -> a_ref (ob a c) = false;
  j_drop : forall u v c f, In (FRmDrop c) (stk a u) -> In f (stk a v) -> ~ execf c f;
  j_self : forall u c m, In (FReqBody c m true) (stk a u) -> a_life (ob a c) = LGone \/ In (FRmDrop c) (stk a u);
  j_ref : forall c, c < num a -> a_ref (ob a c) = true ->
    In c (lst a) \/ a_fin (ob a c) = true \/ (exists u f, In f (stk a u) /\ execf c f) \/ (exists u, In (FRmDrop c) (stk a u));
  j_num : forall c, begun c (lg a) -> c < num a
}.

Lemma begun_snoc c h e : begun c (h ++ [e]) <-> begun c h \/ exists t, e = EBegin c t.
Proof.
  unfold begun. split.
  - intros [t H]. apply in_app_or in H as [H|[->|[]]]; [left|right]; now exists t.
  - intros [[t H]|[t ->]]; exists t; apply in_or_app; [now left|right; now left].
Qed.
Lemma begun_keep c h e : (forall t, e <> EBegin c t) -> (begun c (h ++ [e]) <-> begun c h).
Proof. intros N. rewrite begun_snoc. split; [intros [H|[t E]]; [exact H|now destruct (N t)]|tauto]. Qed.

Lemma J_oth a a' u f :
  (sp a = true -> sp a' = true) -> (sp a = false -> sr a = 0 -> sp a' = false /\ sr a' = 0) ->
  (forall v, sig a = Some v -> sig a' = Some v) -> (sig a' = Some u -> sig a = Some u \/ forall c, f <> FRmSpin c) ->
  (lst a = [] -> lst a' = [] \/ winner f = false) -> num a <= num a' ->
  (forall c, fcb f = Some c -> c < num a -> JC (ob a c) (In c (lst a)) (begun c (lg a)) f -> JC (ob a' c) (In c (lst a')) (begun c (lg a')) f) ->
  J a u f -> J a' u f.
Proof.
  intros H1 H2 H3 H4 H5 H6 H7 [Hw Hc]. split.
  - destruct f; cbn [Jw winner] in *; try exact I; auto.
    + destruct Hw as [? Hm]. split; [auto|]. intros Em. destruct (H5 (Hm Em)); [auto|discriminate].
    + destruct Hw as [? Hm]. split; [auto|]. intros Em. destruct (H5 (Hm Em)); [auto|discriminate].
    + destruct Hw as [Ha Hb]. split; [auto|]. intros Q. destruct (Hb Q). auto.
    + intros Q. destruct (H4 Q) as [|Z]; [auto|]. now destruct (Z c).
  - destruct (fcb f) as [c|]; [|exact I]. destruct Hc as [Hc1 Hc2]. split; [lia|]. now apply H7.
Qed.
Lemma J_frames a a' t fs st f0 : stk a t = f0 :: st -> stk a' = upd (stk a) t (fs ++ st) ->
  (forall f, In f fs -> J a' t f) -> (forall u f, oth (stk a) t st u f -> J a u f -> J a' u f) ->
  (forall u f, In f (stk a u) -> J a u f) -> forall u f, In f (stk a' u) -> J a' u f.
Proof.
  intros E E' Hn Ho H u f Hf. rewrite E' in Hf. apply in_upd in Hf as [[-> Hf]|Hf]; [now apply Hn|].
  apply Ho; [exact Hf|]. apply H. eapply oth_in; eassumption.
Qed.

Lemma tot_upd_app p k t fs f0 st : t < n -> k t = f0 :: st -> tot n p (upd k t (fs ++ st)) + Nat.b2n (p f0) = tot n p k + countf p fs.
Proof.
  intros Ht E. pose proof (tot_upd n p k t (fs ++ st) Ht) as H. rewrite E, countf_cons in H.
  assert (countf p (fs ++ st) = countf p fs + countf p st) by (unfold countf; now rewrite filter_app, app_length). lia.
Qed.

(** A step that changes the stack of one thread only (or what the invariant does not speak of) *)
Lemma inv2_keep a a' t f0 fs st : t < n -> stk a t = f0 :: st -> inv2 a -> stk a' = upd (stk a) t (fs ++ st) ->
  sp a' = sp a -> lst a' = lst a -> sig a' = sig a -> ob a' = ob a -> num a' = num a -> sr a' = sr a -> (forall c, begun c (lg a') <-> begun c (lg a)) ->
  (forall f, In f fs -> J a t f) ->
  (forall c, countf (is_ctor c) fs <= Nat.b2n (is_ctor c f0)) -> (forall c, countf (is_rm c) fs <= Nat.b2n (is_rm c f0)) ->
  (lst a = [] \/ Nat.b2n (winner f0) <= countf winner fs) ->
  (forall c, execf c f0 -> exists f, In f fs /\ execf c f) -> (forall c f, In f fs -> execf c f -> execf c f0) ->
  (forall c, In (FRmDrop c) fs -> forall v f, In f (stk a v) -> ~ execf c f) ->
  (forall c m, ~ In (FReqBody c m true) fs) -> (forall c, f0 <> FRmDrop c) ->
  inv2 a'.
Proof.
  intros Ht Est I Es E1 E2 E3 E4 E5 E6 Eb Hn Hct Hrm Hwn He1 He2 Hd1 Hb1 Hd0.
  assert (HJ : forall u f, J a u f -> J a' u f).
  { intros u f. apply J_oth; rewrite ?E1, ?E2, ?E3, ?E5, ?E6; auto. intros c _ _. rewrite E4.
    destruct f; cbn [JC]; try destruct removed; rewrite ?Eb; auto. }
  assert (Hin : forall u f, In f (stk a' u) -> In f fs \/ In f (stk a u)).
  { intros u f H. rewrite Es in H. apply in_upd in H as [[-> H]|H]; [now left|right; eapply oth_in; eassumption]. }
  assert (Hout : forall u f, In f (stk a u) -> (u = t /\ f = f0) \/ In f (stk a' u)).
  { intros u f H. destruct (in_oth _ _ _ _ _ _ Est H) as [?|H']; [now left|right]. rewrite Es. now apply oth_upd. }
  destruct I as [I1 I2 I3 I4 I5 I6 I7 I8 I9 I10 I11 I12].
  constructor; rewrite ?E1, ?E2, ?E4, ?E5.
  - intros u f Hf. rewrite Es in Hf. apply in_upd in Hf as [[-> Hf]|Hf]; [now apply HJ, Hn|]. apply HJ, I1. eapply oth_in; eassumption.
  - intros c. rewrite Es. pose proof (tot_upd_app (is_ctor c) _ _ fs _ _ Ht Est). specialize (I2 c). specialize (Hct c). lia.
  - intros c. rewrite Es. pose proof (tot_upd_app (is_rm c) _ _ fs _ _ Ht Est). specialize (I3 c). specialize (Hrm c). lia.
  - exact I4.
  - intros c Hc. rewrite Eb. now apply I5.
  - intros Hs. rewrite Es. pose proof (tot_upd_app winner _ _ fs _ _ Ht Est) as G. intros Z. destruct Hwn as [|Hwn]; [assumption|]. apply I6; [assumption|]. lia.
  - exact I7.
  - exact I8.
  - intros u v c f H1 H2. destruct (Hin _ _ H1) as [H1'|H1'], (Hin _ _ H2) as [H2'|H2'].
    + intros X. apply (Hd1 c H1' t f0); [rewrite Est; now left|]. eapply He2; eassumption.
    + now apply (Hd1 c H1' v f).
    + intros X. apply (I9 u t c f0 H1'); [rewrite Est; now left|]. eapply He2; eassumption.
    + eapply I9; eassumption.
  - intros u c m H. destruct (Hin _ _ H) as [H'|H']; [now destruct (Hb1 c m H')|]. destruct (I10 u c m H') as [|H1]; [now left|].
    destruct (Hout _ _ H1) as [[_ E]|]; [now destruct (Hd0 c)|now right].
  - intros c Hc Hr. destruct (I11 c Hc Hr) as [H|[H|[(u & f & H & X)|[u H]]]]; [tauto|tauto| |].
    + right; right; left. destruct (Hout _ _ H) as [[-> ->]|]; [|now exists u, f].
      destruct (He1 c X) as (f & Hf & X'). exists t, f. split; [|exact X']. rewrite Es, upd_eq. apply in_or_app. now left.
    + right; right; right. destruct (Hout _ _ H) as [[_ E]|]; [now destruct (Hd0 c)|now exists u].
  - intros c. rewrite Eb. apply I12.
Qed.

Lemma uniq p a t f0 st u f : inv1 a -> t < n -> stk a t = f0 :: st -> p FUser = false -> tot n p (stk a) <= 1 -> p f0 = true ->
  oth (stk a) t st u f -> p f = false.
Proof.
  intros I Ht Est HU H1 H0 Ho. destruct (Nat.lt_ge_cases u n) as [Hu|Hu]; [exact (oth_uniq n p (stk a) t f0 st u f Ht Hu Est H1 H0 Ho)|].
  pose proof (oth_in _ _ _ _ _ _ Est Ho) as Hf. rewrite (i_out a I u Hu) in Hf. destruct Hf as [<-|[]]. exact HU.
Qed.

Section Step.
Context (a : ast) (t : nat) (f0 : frame) (st : list frame).
Context (Ht : t < n) (Est : stk a t = f0 :: st) (I1 : inv1 a) (I2 : inv2 a).
Let otf := oth (stk a) t st.

Lemma one_winner u f : winner f0 = true -> otf u f -> winner f = false.
Proof. intros H Ho. eapply (uniq winner); try eassumption; [reflexivity|]. pose proof (i_win a I1). destruct (sp a); cbn [Nat.b2n] in *; lia. Qed.
Lemma one_ctor c u f : is_ctor c f0 = true -> otf u f -> is_ctor c f = false.
Proof. intros H Ho. eapply (uniq (is_ctor c)); try eassumption; [reflexivity|]. apply (j_ctor a I2). Qed.
Lemma one_rm c u f : is_rm c f0 = true -> otf u f -> is_rm c f = false.
Proof. intros H Ho. eapply (uniq (is_rm c)); try eassumption; [reflexivity|]. apply (j_rm a I2). Qed.
Lemma top_J : J a t f0.
Proof. apply (j_fr a I2). rewrite Est. now left. Qed.
Lemma oth_J u f : otf u f -> J a u f.
Proof. intros H. apply (j_fr a I2). eapply oth_in; eassumption. Qed.
Lemma top_winner : winner f0 = true -> sp a = true /\ nreq (lg a) = 0.
Proof.
  intros H. pose proof (tot_in n winner (stk a) t f0 Ht ltac:(rewrite Est; now left) H). pose proof (i_win a I1).
  destruct (sp a); cbn [Nat.b2n] in *; [|lia]. split; [reflexivity|lia].
Qed.

(** The general form of a step *)
Lemma inv2_gen0 a' fs : stk a' = upd (stk a) t (fs ++ st) ->
  (forall f, In f fs -> J a' t f) -> (forall u f, otf u f -> J a u f -> J a' u f) ->
  (forall c, tot n (is_ctor c) (upd (stk a) t (fs ++ st)) <= 1) -> (forall c, tot n (is_rm c) (upd (stk a) t (fs ++ st)) <= 1) ->
  NoDup (lst a') ->
  (forall c, In c (lst a') -> c < num a' /\ a_ref (ob a' c) = true /\ a_fin (ob a' c) = false /\ a_rem (ob a' c) = false /\ a_life (ob a' c) <> LGone /\ ~ begun c (lg a')) ->
  (sp a' = true -> tot n winner (upd (stk a) t (fs ++ st)) = 0 -> lst a' = []) ->
  (forall c, c < num a' -> a_life (ob a' c) = LAlive -> a_st (ob a' c) = a_ref (ob a' c)) ->
  (forall c, c < num a' -> a_life (ob a' c) = LGone -> a_ref (ob a' c) = false) ->
  (forall c f, In f fs -> execf c f -> forall v, ~ In (FRmDrop c) (stk a v)) ->
  (forall c f, In (FRmDrop c) fs -> (In f fs \/ exists v, otf v f) -> ~ execf c f) ->
  (forall c m, In (FReqBody c m true) fs -> a_life (ob a' c) = LGone \/ In (FRmDrop c) fs) ->
  (forall u c m, otf u (FReqBody c m true) -> a_life (ob a c) = LGone \/ In (FRmDrop c) (stk a u) -> a_life (ob a' c) = LGone \/ In (FRmDrop c) (stk a' u)) ->
  (forall c, c < num a' -> a_ref (ob a' c) = true ->
    In c (lst a') \/ a_fin (ob a' c) = true \/ (exists u f, In f (stk a' u) /\ execf c f) \/ (exists u, In (FRmDrop c) (stk a' u))) ->
  (forall c, begun c (lg a') -> c < num a') ->
  inv2 a'.
Proof.
  intros Es Hn Ho Hct Hrm Hnd Hl He Hal Hgo Hd1 Hd2 Hs1 Hs2 Hr Hnum.
  assert (Hin : forall u f, In f (stk a' u) -> (u = t /\ In f fs) \/ otf u f) by (intros u f H; rewrite Es in H; now apply in_upd in H).
  constructor; try assumption.
  - intros u f Hf. destruct (Hin u f Hf) as [[-> H]|H]; [now apply Hn|]. apply Ho; [exact H|]. now apply oth_J.
  - intros c. rewrite Es. apply Hct.
  - intros c. rewrite Es. apply Hrm.
  - rewrite Es. exact He.
  - intros u v c f H1 H2 X. destruct (Hin _ _ H1) as [[-> H1']|H1'], (Hin _ _ H2) as [[-> H2']|H2'].
    + exact (Hd2 c f H1' (or_introl H2') X).
    + exact (Hd2 c f H1' (or_intror (ex_intro _ v H2')) X).
    + apply (Hd1 c f H2' X u). eapply oth_in; eassumption.
    + apply (j_drop a I2 u v c f); [eapply oth_in; eassumption|eapply oth_in; eassumption|exact X].
  - intros u c m H. destruct (Hin _ _ H) as [[-> H']|H'].
    + destruct (Hs1 c m H') as [|X]; [now left|right]. rewrite Es, upd_eq. apply in_or_app. now left.
    + apply (Hs2 u c m H'). apply (j_self a I2 u c m). eapply oth_in; eassumption.
Qed.
Lemma inv2_gen a' fs : stk a' = upd (stk a) t (fs ++ st) ->
  (forall f, In f fs -> J a' t f) -> (forall u f, otf u f -> J a u f -> J a' u f) ->
  (forall c, countf (is_ctor c) fs <= Nat.b2n (is_ctor c f0)) -> (forall c, countf (is_rm c) fs <= Nat.b2n (is_rm c f0)) ->
  NoDup (lst a') ->
  (forall c, In c (lst a') -> c < num a' /\ a_ref (ob a' c) = true /\ a_fin (ob a' c) = false /\ a_rem (ob a' c) = false /\ a_life (ob a' c) <> LGone /\ ~ begun c (lg a')) ->
  (sp a' = true -> tot n winner (upd (stk a) t (fs ++ st)) = 0 -> lst a' = []) ->
  (forall c, c < num a' -> a_life (ob a' c) = LAlive -> a_st (ob a' c) = a_ref (ob a' c)) ->
  (forall c, c < num a' -> a_life (ob a' c) = LGone -> a_ref (ob a' c) = false) ->
  (forall c f, In f fs -> execf c f -> forall v, ~ In (FRmDrop c) (stk a v)) ->
  (forall c f, In (FRmDrop c) fs -> (In f fs \/ exists v, otf v f) -> ~ execf c f) ->
  (forall c m, In (FReqBody c m true) fs -> a_life (ob a' c) = LGone \/ In (FRmDrop c) fs) ->
  (forall u c m, otf u (FReqBody c m true) -> a_life (ob a c) = LGone \/ In (FRmDrop c) (stk a u) -> a_life (ob a' c) = LGone \/ In (FRmDrop c) (stk a' u)) ->
  (forall c, c < num a' -> a_ref (ob a' c) = true ->
    In c (lst a') \/ a_fin (ob a' c) = true \/ (exists u f, In f (stk a' u) /\ execf c f) \/ (exists u, In (FRmDrop c) (stk a' u))) ->
  (forall c, begun c (lg a') -> c < num a') ->
  inv2 a'.
Proof.
  intros Es Hn Ho Hct Hrm. apply inv2_gen0; try assumption.
  - intros c. pose proof (tot_upd_app (is_ctor c) _ _ fs _ _ Ht Est). pose proof (j_ctor a I2 c). specialize (Hct c). lia.
  - intros c. pose proof (tot_upd_app (is_rm c) _ _ fs _ _ Ht Est). pose proof (j_rm a I2 c). specialize (Hrm c). lia.
Qed.
End Step.
End Threads.
