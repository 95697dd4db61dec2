(** The history of events is lawful: invariants and their preservation. *)
From Coq Require Import ZifyBool ZifyNat.
From Verif Require Import Common JStopModel JStopSpec JStopWord JStopAbs JStopInv JStopInv2.

Definition ecb (e : event) : option nat :=
  match e with ENew c _ | EAdd c _ | EBegin c _ | EEnd c _ | EDying c _ | EGone c _ => Some c | _ => None end.
(** The callback was constructed after the request *)
Definition late (c : nat) (h : list event) : Prop := exists h1 h2 t, h = h1 ++ ENew c t :: h2 /\ stopped h1.

Lemma stopped_snoc h e : stopped (h ++ [e]) <-> stopped h \/ exists t, e = ESignal t.
Proof.
  unfold stopped. split.
  - intros [t H]. apply in_app_or in H as [H|[->|[]]]; [left|right]; now exists t.
  - intros [[t H]|[t ->]]; exists t; apply in_or_app; [now left|right; now left].
Qed.
Lemma late_snoc c h e : late c (h ++ [e]) -> late c h \/ exists t, e = ENew c t.
Proof.
  intros (h1 & h2 & t & E & Hs).
  destruct h2 as [|y h2] using rev_ind.
  - apply app_inj_tail in E as [_ ->]. right. now exists t.
  - left. exists h1, h2, t. split; [|exact Hs].
    change (h1 ++ ENew c t :: h2 ++ [y]) with (h1 ++ (ENew c t :: h2) ++ [y]) in E. rewrite app_assoc in E. now apply app_inj_tail in E as [-> _].
Qed.
Lemma late_stopped c h : late c h -> stopped h.
Proof. intros (h1 & h2 & t & -> & [u H]). exists u. apply in_or_app. now left. Qed.
Lemma in_snoc (e x : event) h : In x (h ++ [e]) <-> In x h \/ e = x.
Proof. rewrite in_app_iff. cbn. tauto. Qed.

(** The user code in the stack that is the body of a call of [c] *)
Definition bodyf (c : nat) (f : frame) : Prop := match f with FReqBody d _ _ | FAddInl d _ => d = c | _ => False end.
Fixpoint act (c : nat) (l : list frame) : Prop :=
  match l with
  | [] => False
  | f :: r => (f = FUser /\ match r with g :: _ => bodyf c g | [] => False end) \/ act c r
  end.
Lemma act_lib c f st : f <> FUser -> (act c (f :: st) <-> act c st).
Proof. intros N. cbn. tauto. Qed.
Lemma act_in c l : act c l -> exists f, In f l /\ bodyf c f.
Proof.
  induction l as [|f r IH]; cbn; [easy|]. intros [[-> H]|H].
  - destruct r as [|g r]; [easy|]. exists g. split; [right; now left|exact H].
  - destruct (IH H) as (g & ? & ?). exists g. split; [now right|assumption].
Qed.
Lemma act_removed c d l : act c (set_removed d l) <-> act c l.
Proof.
  assert (Hu : forall f, (match f with FReqBody e m r => if Nat.eqb e d then FReqBody e m true else f | _ => f end) = FUser <-> f = FUser).
  { intros []; try tauto. destruct (Nat.eqb c0 d); split; discriminate. }
  assert (Hb : forall f, bodyf c (match f with FReqBody e m r => if Nat.eqb e d then FReqBody e m true else f | _ => f end) <-> bodyf c f).
  { intros []; try tauto. destruct (Nat.eqb c0 d); cbn; tauto. }
  induction l as [|f r IH]; [reflexivity|]. unfold set_removed in *. cbn [map act]. rewrite IH, Hu.
  destruct r as [|g r]; [reflexivity|]. cbn [map]. now rewrite Hb.
Qed.

Section Threads.
Context (n : nat).

(** What a frame knows of the history *)
Definition JL (a : ast) (u : nat) (f : frame) : Prop :=
  match f with
  | FReqSet => In (ESignal u) (lg a)
  | FAdd c _ | FAddPush c _ => In (ENew c u) (lg a)
  | FAddChk c _ o => In (ENew c u) (lg a) /\ (late c (lg a) -> is_stop_requested o = true)
  | FAddInl c _ => In (ENew c u) (lg a) /\ In (EBegin c u) (lg a)
  | FAddRet c true => In (ENew c u) (lg a) /\ ~ late c (lg a)
  | FAddRet c false => In (ENew c u) (lg a) /\ (late c (lg a) -> In (EEnd c u) (lg a))
  | FRm c | FRmCas c _ | FRmBody c | FRmCheck c | FRmSpin c | FRmDrop c => In (EDying c u) (lg a)
  | _ => True
  end.
Definition life_log (l : life) (c : nat) (h : list event) : Prop :=
  match l with
  | LBuild => (forall u, ~ In (EAdd c u) h) /\ (forall u, ~ In (EDying c u) h) /\ forall u, ~ In (EGone c u) h
  | LAlive => (exists u, In (EAdd c u) h) /\ (forall u, ~ In (EDying c u) h) /\ forall u, ~ In (EGone c u) h
  | LDying => (exists u, In (EAdd c u) h) /\ (exists u, In (EDying c u) h) /\ forall u, ~ In (EGone c u) h
  | LGone => (exists u, In (EAdd c u) h) /\ (exists u, In (EDying c u) h)
  end.
(** A callback that waits to be registered or to be called *)
Definition waitf (c : nat) (f : frame) : Prop := match f with FAdd d _ | FAddChk d _ _ | FAddPush d _ | FReqRun d _ => d = c | _ => False end.
Definition dead (a : ast) : Prop := sp a = false /\ sr a = 0.
Definition placed (a : ast) (c : nat) : Prop :=
  (exists u f, In f (stk a u) /\ waitf c f) \/ In c (lst a) \/ begun c (lg a) \/ a_life (ob a c) = LDying \/ a_life (ob a c) = LGone \/ dead a.

Record inv4 (a : ast) : Prop := {
  g_fr : forall u f, In f (stk a u) -> JL a u f;
  g_num : forall c e, In e (lg a) -> ecb e = Some c -> c < num a;
  g_life : forall c, c < num a -> life_log (a_life (ob a c)) c (lg a);
  g_stop : sp a = true <-> stopped (lg a);
  g_sig : forall u, sig a = Some u -> In (ESignal u) (lg a);
  g_poss : forall u, In (EPossible u false) (lg a) -> dead a;
  g_act : forall c u, In (EBegin c u) (lg a) -> In (EEnd c u) (lg a) \/ act c (stk a u);
  g_act2 : forall c u, act c (stk a u) -> In (EBegin c u) (lg a) /\ forall v, ~ In (EEnd c v) (lg a);
  g_end : forall c u, In (EEnd c u) (lg a) -> In (EBegin c u) (lg a);
  g_place : forall c, c < num a -> placed a c;
  g_law : lawful (lg a)
}.

(** ** What frames know *)
Definition grows (a a' : ast) : Prop :=
  (forall e, In e (lg a) -> In e (lg a')) /\ forall c, c < num a -> late c (lg a') -> late c (lg a).
Lemma grows_refl a a' : lg a' = lg a -> grows a a'.
Proof. intros E. split; rewrite E; auto. Qed.
Lemma grows_snoc a a' e : lg a' = lg a ++ [e] -> (forall c t, e = ENew c t -> num a <= c) -> grows a a'.
Proof.
  intros E N. split; rewrite E.
  - intros x H. apply in_snoc. now left.
  - intros c Hc H. apply late_snoc in H as [H|[t H]]; [exact H|]. specialize (N c t H). lia.
Qed.
Lemma grows_snoc2 a a' e e' : lg a' = (lg a ++ [e]) ++ [e'] -> (forall c t, e = ENew c t -> num a <= c) -> (forall c t, e' = ENew c t -> num a <= c) -> grows a a'.
Proof.
  intros E N N'. split; rewrite E.
  - intros x H. rewrite !in_snoc. tauto.
  - intros c Hc H. apply late_snoc in H as [H|[t H]]; [|specialize (N' c t H); lia]. apply late_snoc in H as [H|[t H]]; [exact H|]. specialize (N c t H). lia.
Qed.
Lemma JL_grows a a' u f : grows a a' -> (forall c, fcb f = Some c -> c < num a) -> JL a u f -> JL a' u f.
Proof.
  intros [G1 G2] Hc. destruct f; cbn [JL fcb] in *; auto; specialize (fun d H => G2 d (Hc d H)).
  - intros [H1 H2]. split; [auto|]. intros L. apply H2, (G2 c eq_refl L).
  - intros [H1 H2]. auto.
  - destruct ok; intros [H1 H2]; split; auto.
Qed.
Lemma JL_frames a a' t fs st f0 : grows a a' -> inv2 n a -> stk a t = f0 :: st -> stk a' = upd (stk a) t (fs ++ st) ->
  (forall f, In f fs -> JL a' t f) -> (forall u f, In f (stk a u) -> JL a u f) -> forall u f, In f (stk a' u) -> JL a' u f.
Proof.
  intros G I2 E E' Hn H u f Hf. rewrite E' in Hf. apply in_upd in Hf as [[-> Hf]|Hf]; [now apply Hn|].
  pose proof (oth_in _ _ _ _ _ _ E Hf) as Hf'. apply (JL_grows a); [exact G| |now apply H].
  intros c Ec. destruct (j_fr n a I2 u f Hf') as [_ K]. rewrite Ec in K. now destruct K.
Qed.

Definition bodyb (c : nat) (f : frame) : bool := match f with FReqBody d _ _ | FAddInl d _ => Nat.eqb d c | _ => false end.
Lemma bodyb_spec c f : bodyb c f = true <-> bodyf c f.
Proof. destruct f; cbn; try (split; [discriminate|intros []]); apply Nat.eqb_eq. Qed.
Lemma tot_le_in (p q : frame -> bool) k : (forall u f, In f (k u) -> p f = true -> q f = true) -> tot n p k <= tot n q k.
Proof.
  intros H. unfold tot. induction n as [|m IH]; cbn [sum]; [lia|].
  assert (countf p (k m) <= countf q (k m)); [|lia].
  specialize (H m). induction (k m) as [|f l IHl]; [reflexivity|]. rewrite !countf_cons.
  pose proof (H f (or_introl eq_refl)) as Hf. specialize (IHl (fun g Hg => H g (or_intror Hg))). destruct (p f), (q f); cbn [Nat.b2n]; lia.
Qed.
Lemma build_body a c u v mv f : inv2 n a -> In (FAddInl c mv) (stk a u) -> In f (stk a v) -> bodyf c f -> exists mv', f = FAddInl c mv'.
Proof.
  intros I2 Hu Hv Hb. destruct (j_fr n a I2 u _ Hu) as [_ (_ & L & R & _)].
  destruct f; try (now destruct Hb); cbn in Hb; subst; [exfalso|now exists mv0].
  destruct removed.
  - destruct (j_self n a I2 v c more Hv) as [G|G]; [congruence|]. destruct (j_fr n a I2 v _ G) as [_ (_ & L' & _)]. congruence.
  - destruct (j_fr n a I2 v _ Hv) as [_ (_ & R' & _)]. congruence.
Qed.
Lemma one_body a c : inv1 n a -> inv2 n a -> tot n (bodyb c) (stk a) <= 1.
Proof.
  intros I1 I2. destruct (tot n (fun f => match f with FAddInl d _ => Nat.eqb d c | _ => false end) (stk a)) eqn:E.
  - assert (tot n (bodyb c) (stk a) <= tot n winner (stk a)).
    { apply tot_le_in. intros u f Hf B. destruct (Nat.lt_ge_cases u n) as [Hu|Hu].
      - destruct f; try discriminate; [reflexivity|]. cbn in B.
        pose proof (tot_in n (fun f => match f with FAddInl d _ => Nat.eqb d c | _ => false end) (stk a) u _ Hu Hf B). lia.
      - rewrite (i_out n a I1 u Hu) in Hf. destruct Hf as [<-|[]]. discriminate. }
    pose proof (i_win n a I1). destruct (sp a); cbn [Nat.b2n] in *; lia.
  - destruct (tot_pos n (fun f => match f with FAddInl d _ => Nat.eqb d c | _ => false end) (stk a)) as (u & f & Hu & Hf & B); [lia|].
    destruct f; try discriminate. apply Nat.eqb_eq in B. subst c0.
    assert (tot n (bodyb c) (stk a) <= tot n (is_ctor c) (stk a)).
    { apply tot_le_in. intros v g Hg B. apply bodyb_spec in B. destruct (build_body a c u v mv g I2 Hf Hg B) as [mv' ->]. cbn. apply Nat.eqb_refl. }
    pose proof (j_ctor n a I2 c). lia.
Qed.

Ltac proj := cbn [sp lk lst sig ob num stk tk sr fr lg s_stk s_lk s_sp s_lst s_sig s_ob s_objs s_num s_lg s_fr] in *.
Ltac ev := rewrite ?in_snoc in *; repeat match goal with
  | H : _ \/ _ = _ |- _ => destruct H as [H|H]; [|try discriminate H; try (injection H; clear H; intros)] end.

Section Step.
Context (a : ast) (t : nat) (f0 : frame) (st : list frame).
Context (Ht : t < n) (Est : stk a t = f0 :: st) (I1 : inv1 n a) (I2 : inv2 n a) (I4 : inv4 a).

Lemma top_JL : JL a t f0.
Proof. apply (g_fr a I4). rewrite Est. now left. Qed.
Lemma top_body c : bodyf c f0 -> forall u f, oth (stk a) t st u f -> ~ bodyf c f.
Proof.
  intros B u f Ho B'. apply bodyb_spec in B, B'. enough (bodyb c f = false) by congruence.
  eapply (uniq n (bodyb c)); try eassumption; [reflexivity|]. now apply one_body.
Qed.

Lemma fr_lib a' : lstep t a st f0 a' -> forall u f, In f (stk a' u) -> JL a' u f.
Proof.
  intros H. pose proof top_JL as HT. pose proof top_body as HTB. pose proof (top_J n a t f0 st Est I2) as HJ. pose proof (g_stop a I4) as HS. pose proof (g_fr a I4) as HF.
  assert (HL : forall c, late c (lg a) -> sp a = true) by (intros c L; apply HS; eapply late_stopped; exact L).
  assert (Hrun : forall fs, stk a' = upd (stk a) t (fs ++ st) -> grows a a' -> (forall f, In f fs -> JL a' t f) -> forall u f, In f (stk a' u) -> JL a' u f).
  { intros fs E G Hn. eapply JL_frames; try eassumption. }
  inversion H as [? ? Hc | | | | | | | | | | | | | | | | | | | | | | ]; subst; try (inversion Hc; subst); clear H; unfold J in HJ; cbn [JL Jw fcb JC] in HT, HJ.
  all: try match goal with r : bool |- context [if ?r then a else _] => destruct r end.
  all: try match goal with |- forall u f, In f (stk ?x u) -> _ => match x with context [s_stk _ t (?f1 :: ?f2 :: st)] => apply (Hrun [f1; f2]) | context [s_stk _ t (?f1 :: st)] => apply (Hrun [f1]) | context [s_stk _ t st] => apply (Hrun []) end end.
  all: try reflexivity.
  all: try match goal with |- grows _ _ => first [apply grows_refl; reflexivity | eapply grows_snoc; [reflexivity|discriminate]] end.
  all: try match goal with |- forall f, In f _ -> _ => intros f Hf; repeat destruct Hf as [<-|Hf]; cbn [JL]; proj; try exact I; try exact HT; try (now destruct Hf) end.
  - destruct H0 as [H0 _]. split; [exact HT|]. intros L. rewrite H0. now apply (HL c).
  - tauto.
  - destruct H0 as [H0 _]. split; [tauto|]. intros L. rewrite H0. now apply (HL c).
  - apply in_snoc. now right.
  - rewrite !in_snoc. tauto.
  - split; [tauto|]. intros L. apply HT in L. unfold is_requestable in H0. rewrite L in H0. discriminate.
  - tauto.
  - split; [exact HT|]. intros L. apply HL in L.
    rewrite (i_push n a I1) in L; [discriminate|]. apply (tot_in n is_push (stk a) t (FAddPush c mv) Ht); [rewrite Est; now left|reflexivity].
  - split; [tauto|]. intros _. destruct (g_act a I4 c t) as [|G]; [tauto|assumption|exfalso].
    rewrite Est, act_lib in G by discriminate. apply act_in in G as (g & Hg & B).
    apply (HTB c ltac:(reflexivity) t g); [right; now split|exact B].
  - intros u f Hf. proj. destruct (Nat.eq_dec u t) as [->|N]; [rewrite upd_eq in Hf|rewrite upd_neq in Hf by exact N; now apply HF].
    destruct Hf as [<-|Hf]; [exact HT|].
    assert (Hf' : (In f st \/ exists m, f = FReqBody c m true)).
    { destruct (a_rem (ob a c)); [|now left]. apply in_removed in Hf as [[Hf _]|(m & -> & _)]; [now left|right; now exists m]. }
    destruct Hf' as [Hf'|[m ->]]; [|exact I]. assert (G : JL a t f) by (apply HF; rewrite Est; now right). exact G.
Qed.

Ltac cases H HJ HT := inversion H as [? ? Hc | | | | | | | | | | | | | | | | | | | | | | ]; subst; try (inversion Hc; subst); clear H; unfold J in HJ; cbn [JL Jw fcb JC] in HT, HJ;
  try match goal with r : bool |- context [if ?r then a else _] => destruct r end; proj.

Lemma num_lib a' : lstep t a st f0 a' -> forall c e, In e (lg a') -> ecb e = Some c -> c < num a'.
Proof.
  intros H. pose proof top_JL as HT. pose proof (top_J n a t f0 st Est I2) as HJ. pose proof (g_num a I4) as HN.
  cases H HJ HT; try exact HN; intros d e He Ec; apply in_snoc in He as [He|<-]; try (eapply HN; eassumption); cbn in Ec; try discriminate; injection Ec as <-; tauto.
Qed.

Lemma stop_lib a' : lstep t a st f0 a' -> (sp a' = true <-> stopped (lg a')).
Proof.
  intros H. pose proof top_JL as HT. pose proof (top_J n a t f0 st Est I2) as HJ. pose proof (g_stop a I4) as HS.
  cases H HJ HT; try exact HS; rewrite stopped_snoc; try (rewrite HS; split; [now left|intros [G|[u G]]; [exact G|discriminate]]).
  split; [intros _; right; now exists t|reflexivity].
Qed.

Lemma sig_lib a' : lstep t a st f0 a' -> forall u, sig a' = Some u -> In (ESignal u) (lg a').
Proof.
  intros H. pose proof top_JL as HT. pose proof (top_J n a t f0 st Est I2) as HJ. pose proof (g_sig a I4) as HS.
  cases H HJ HT; try exact HS; intros u Hu; try (apply in_snoc; left; now apply HS). injection Hu as <-. exact HT.
Qed.

Lemma req_src : in_req f0 = true -> 1 <= sr a.
Proof. intros E. apply (i_src n a I1). apply (tot_in n in_req (stk a) t f0 Ht); [rewrite Est; now left|exact E]. Qed.

Lemma dead_lib a' : lstep t a st f0 a' -> dead a -> dead a'.
Proof.
  intros H. pose proof req_src as HR. pose proof top_JL as HT. pose proof (top_J n a t f0 st Est I2) as HJ. unfold dead.
  cases H HJ HT; auto. specialize (HR eq_refl). lia.
Qed.
Lemma poss_lib a' : lstep t a st f0 a' -> forall u, In (EPossible u false) (lg a') -> dead a'.
Proof.
  intros H u Hu. apply (dead_lib _ H). apply (g_poss a I4 u). pose proof top_JL as HT. pose proof (top_J n a t f0 st Est I2) as HJ.
  revert Hu. cases H HJ HT; auto; intros Hu; apply in_snoc in Hu as [Hu|Hu]; try discriminate; exact Hu.
Qed.

(** bodies of callbacks *)
Lemma act_upd c u l : act c (upd (stk a) t l u) <-> (u = t /\ act c l) \/ (u <> t /\ act c (stk a u)).
Proof. destruct (Nat.eq_dec u t) as [->|N]; [rewrite upd_eq|rewrite upd_neq by exact N]; tauto. Qed.
Lemma act_same c u l : (act c l <-> act c (f0 :: st)) -> (act c (upd (stk a) t l u) <-> act c (stk a u)).
Proof. intros H. rewrite act_upd, H, <- Est. destruct (Nat.eq_dec u t) as [->|N]; tauto. Qed.
Lemma not_user a' : lstep t a st f0 a' -> f0 <> FUser.
Proof. intros H ->. inversion H. inversion H0. Qed.

Definition act_inv (x : ast) : Prop :=
  (forall c u, In (EBegin c u) (lg x) -> In (EEnd c u) (lg x) \/ act c (stk x u)) /\
  (forall c u, act c (stk x u) -> In (EBegin c u) (lg x) /\ forall v, ~ In (EEnd c v) (lg x)) /\
  (forall c u, In (EEnd c u) (lg x) -> In (EBegin c u) (lg x)).
Lemma act_inv_4 : act_inv a.
Proof. split; [|split]; [apply (g_act a I4)|apply (g_act2 a I4)|apply (g_end a I4)]. Qed.
(** steps that neither call a callback nor return from one *)
Lemma act_quiet x : (forall c u, act c (stk x u) <-> act c (stk a u)) -> (lg x = lg a \/ exists e, lg x = lg a ++ [e] /\ (forall c u, e <> EBegin c u) /\ forall c u, e <> EEnd c u) -> act_inv x.
Proof.
  intros Ha Hl. destruct act_inv_4 as (A1 & A2 & A3).
  assert (HB : forall c u, In (EBegin c u) (lg x) <-> In (EBegin c u) (lg a)).
  { intros c u. destruct Hl as [->|(e & -> & N & _)]; [reflexivity|]. rewrite in_snoc. split; [intros [G|G]; [exact G|now destruct (N c u)]|tauto]. }
  assert (HE : forall c u, In (EEnd c u) (lg x) <-> In (EEnd c u) (lg a)).
  { intros c u. destruct Hl as [->|(e & -> & _ & N)]; [reflexivity|]. rewrite in_snoc. split; [intros [G|G]; [exact G|now destruct (N c u)]|tauto]. }
  split; [|split]; intros c u; rewrite ?HB, ?HE, ?Ha; [apply A1| |apply A3].
  intros G. destruct (A2 c u G) as [G1 G2]. split; [exact G1|]. intros v. rewrite HE. apply G2.
Qed.
(** a callback is called *)
Lemma act_call x c : f0 <> FUser -> (forall d u, act d (stk x u) <-> act d (stk a u) \/ (d = c /\ u = t)) -> lg x = lg a ++ [EBegin c t] -> ~ begun c (lg a) -> act_inv x.
Proof.
  intros N Ha El Hb. destruct act_inv_4 as (A1 & A2 & A3). unfold act_inv. rewrite El.
  split; [|split]; intros d u; rewrite ?in_snoc, ?Ha.
  - intros [G|G]; [destruct (A1 d u G); tauto|]. injection G as <- <-. tauto.
  - intros [G|[-> ->]].
    + destruct (A2 d u G) as [G1 G2]. split; [tauto|]. intros v. rewrite in_snoc. intros [Z|Z]; [now apply (G2 v)|discriminate].
    + split; [tauto|]. intros v. rewrite in_snoc. intros [Z|Z]; [|discriminate]. apply Hb. exists v. now apply A3.
  - intros [G|G]; [left; now apply A3|discriminate].
Qed.

Lemma acts_lib a' : lstep t a st f0 a' -> act_inv a'.
Proof.
  intros H. pose proof (not_user a' H) as NU. pose proof act_quiet as AQ. pose proof act_call as AC. pose proof act_same as AS. pose proof act_upd as AU. pose proof top_JL as HT. pose proof (top_J n a t f0 st Est I2) as HJ.
  inversion H as [? ? Hc | | | | | | | | | | | | | | | | | | | | | | ]; subst; try (inversion Hc; subst); clear H; unfold J in HJ; cbn [JL Jw fcb JC] in HT, HJ;
    try match goal with r : bool |- context [if ?r then a else _] => destruct r end.
  all: try (apply AQ; proj; [intros d u; apply AS; rewrite !act_lib by discriminate; reflexivity | first [left; reflexivity | right; eexists; split; [reflexivity|split; intros; discriminate]]]; fail).
  all: try (apply AQ; proj; [intros d u; apply AS; rewrite (act_lib d _ st) by discriminate; reflexivity | first [left; reflexivity | right; eexists; split; [reflexivity|split; intros; discriminate]]]; fail).
  - apply (AC _ c NU); [|reflexivity|tauto]. intros d u. proj. rewrite AU. cbn [act bodyf]. 
    destruct (Nat.eq_dec u t) as [->|N].
    + rewrite Est. cbn [act]. intuition congruence.
    + intuition congruence.
  - apply (AC _ c NU); [|reflexivity|tauto]. intros d u. proj. rewrite AU. cbn [act bodyf].
    destruct (Nat.eq_dec u t) as [->|N].
    + rewrite Est. cbn [act]. intuition congruence.
    + intuition congruence.
  - apply AQ; proj; [|left; reflexivity]. intros d u. apply AS. rewrite !act_lib by discriminate. destruct (a_rem (ob a c)); [apply act_removed|reflexivity].
Qed.

Lemma life_keep l c h e : (forall u, e <> EAdd c u) -> (forall u, e <> EDying c u) -> (forall u, e <> EGone c u) -> life_log l c h -> life_log l c (h ++ [e]).
Proof.
  intros N1 N2 N3.
  assert (X : forall (k : nat -> event), (forall u, e <> k u) -> (forall u, ~ In (k u) h) -> forall u, ~ In (k u) (h ++ [e])).
  { intros k Nk G u. rewrite in_snoc. intros [Z|Z]; [now apply (G u)|now apply (Nk u)]. }
  assert (Y : forall (k : nat -> event), (exists u, In (k u) h) -> exists u, In (k u) (h ++ [e])).
  { intros k [u G]. exists u. apply in_snoc. now left. }
  pose proof (X (EAdd c)). pose proof (X (EDying c)). pose proof (X (EGone c)). pose proof (Y (EAdd c)). pose proof (Y (EDying c)).
  destruct l; cbn [life_log]; intuition auto.
Qed.
Lemma life_gone l c h : l <> LGone -> life_log l c h -> forall u, ~ In (EGone c u) h.
Proof. destruct l; cbn [life_log]; try congruence; tauto. Qed.
Lemma life_build_add c h : life_log LBuild c h -> forall u, ~ In (EAdd c u) h.
Proof. cbn [life_log]. tauto. Qed.
Lemma life_dying l c h : l = LDying \/ l = LGone -> life_log l c h -> exists u, In (EDying c u) h.
Proof. intros [->| ->]; cbn [life_log]; tauto. Qed.

Lemma life_lib a' : lstep t a st f0 a' -> forall c, c < num a' -> life_log (a_life (ob a' c)) c (lg a').
Proof.
  intros H. pose proof top_JL as HT. pose proof (top_J n a t f0 st Est I2) as HJ. pose proof (g_life a I4) as HL.
  cases H HJ HT; try exact HL; intros d Hd; specialize (HL d Hd).
  all: try (destruct (Nat.eq_dec d c) as [E|N]; [rewrite E in *; rewrite upd_eq|rewrite upd_neq by exact N]).
  all: try (apply life_keep; try discriminate; try (intros; congruence); exact HL).
  all: try (cbn [o_rem o_fin o_ref a_life]; exact HL).
  - cbn [o_add a_life life_log]. destruct HJ as (_ & _ & E1 & _). rewrite E1 in HL. destruct HL as (L1 & L2 & L3).
    split; [exists t; apply in_snoc; now right|]. split; intros u; rewrite in_snoc; intros [Z|Z]; try discriminate; [now apply (L2 u)|now apply (L3 u)].
  - cbn [o_gone a_life life_log]. destruct HJ as (_ & _ & E1 & _). rewrite E1 in HL. destruct HL as ((u & L1) & (v & L2) & L3).
    split; [exists u|exists v]; apply in_snoc; now left.
  - cbn [o_gone a_life life_log]. destruct HJ as (_ & _ & E1 & _). rewrite E1 in HL. destruct HL as ((u & L1) & (v & L2) & L3).
    split; [exists u|exists v]; apply in_snoc; now left.
Qed.

(** Where callbacks are *)
Lemma place_gen a' fs : stk a' = upd (stk a) t (fs ++ st) -> num a' = num a -> (dead a -> dead a') ->
  (forall c, begun c (lg a) -> begun c (lg a')) ->
  (forall c, a_life (ob a c) = LDying \/ a_life (ob a c) = LGone -> a_life (ob a' c) = LDying \/ a_life (ob a' c) = LGone) ->
  (forall c, In c (lst a) -> placed a' c) -> (forall c, waitf c f0 -> placed a' c) ->
  forall c, c < num a' -> placed a' c.
Proof.
  intros Es En Hd Hb Hl Hi Hw c Hc. rewrite En in Hc. destruct (g_place a I4 c Hc) as [(u & f & Hf & W)|[H|[H|[H|[H|H]]]]].
  - destruct (in_oth _ _ _ _ _ _ Est Hf) as [[_ ->]|Ho]; [now apply Hw|]. left. exists u, f. split; [rewrite Es; now apply oth_upd|exact W].
  - now apply Hi.
  - right; right; left. now apply Hb.
  - destruct (Hl c (or_introl H)); unfold placed; tauto.
  - destruct (Hl c (or_intror H)); unfold placed; tauto.
  - unfold placed. tauto.
Qed.
Lemma begun_more c h e : begun c h -> begun c (h ++ [e]).
Proof. intros H. apply begun_snoc. now left. Qed.

Lemma place_lib a' : lstep t a st f0 a' -> forall c, c < num a' -> placed a' c.
Proof.
  intros H. pose proof (dead_lib a' H) as HD. pose proof place_gen as PG. pose proof top_JL as HT. pose proof (top_J n a t f0 st Est I2) as HJ. pose proof (g_place a I4) as HP.
  inversion H as [? ? Hc | | | | | | | | | | | | | | | | | | | | | | ]; subst; try (inversion Hc; subst); clear H; unfold J in HJ; cbn [JL Jw fcb JC] in HT, HJ;
    try match goal with r : bool |- context [if ?r then a else _] => destruct r end.
  (* the destructor in the callback *)
  all: try match goal with |- context [set_removed] => 
    intros d Hd; destruct (HP d Hd) as [(u & f & Hf & W)|G]; [|right; exact G];
    left; exists u, f; split; [|exact W]; proj; destruct (Nat.eq_dec u t) as [->|N]; [rewrite upd_eq|now rewrite upd_neq];
    rewrite Est in Hf; destruct Hf as [<-|Hf]; [destruct W|]; right; destruct (a_rem (ob a c)); [|exact Hf]; apply removed_in; [exact Hf|intros m ->; destruct W] end.
  all: try match goal with |- forall c, c < num ?x -> _ => match x with context [s_stk _ t (?f1 :: ?f2 :: st)] => apply (PG x [f1; f2]) | context [s_stk _ t (?f1 :: st)] => apply (PG x [f1]) | context [s_stk _ t st] => apply (PG x []) end end.
  all: try reflexivity.
  all: try exact HD.
  all: proj.
  all: try (intros d Hd; exact Hd).
  all: try (intros d Hd; apply begun_more; exact Hd).
  all: try (intros d Hd; right; left; exact Hd).
  all: try (intros d W; now destruct W).
  all: try match goal with |- forall c, _ -> a_life (upd _ ?e _ _) = _ \/ _ => intros d Hd; destruct (Nat.eq_dec d e) as [->|N]; [rewrite upd_eq; cbn; intuition congruence|rewrite upd_neq by exact N; exact Hd] end.
  - intros d W. left. exists t, (FAddChk c mv w). split; [proj; rewrite upd_eq; now left|exact W].
  - intros d W. left. exists t, (FAdd c mv). split; [proj; rewrite upd_eq; now left|exact W].
  - intros d W. left. exists t, (FAddChk c mv w). split; [proj; rewrite upd_eq; now left|exact W].
  - intros d Hd. rewrite H0 in Hd. destruct Hd as [<-|Hd]; [|right; left; exact Hd].
    left. exists t, (FReqRun c (negb (isnil l))). split; [proj; rewrite upd_eq; now left|reflexivity].
  - intros d W. cbn in W. subst d. right; right; left. apply begun_snoc. right. now exists t.
  - intros d W. cbn in W. subst d. right; right; left. apply begun_snoc. right. now exists t.
  - intros d W. do 5 right. apply HD. destruct HJ as [[_ HJ] _]. now apply HJ.
  - intros d W. left. exists t, (FAddPush c mv). split; [proj; rewrite upd_eq; now left|exact W].
  - intros d Hd. right; left. now right.
  - intros d W. cbn in W. subst d. right; left. now left.
  - intros d Hd. rewrite H0 in Hd. apply in_app_or in Hd as [Hd|[<-|Hd]]; [right; left; apply in_or_app; now left| |right; left; apply in_or_app; now right].
    right; right; right; right; left. proj. now rewrite upd_eq.
Qed.

(** The events are allowed *)
Lemma req_none : nreq (lg a) = 0 -> forall u, ~ In (EReq u true) (lg a).
Proof.
  intros E u H. unfold nreq in E. assert (G : In (EReq u true) (filter is_true_req (lg a))) by (apply filter_In; now split).
  destruct (filter is_true_req (lg a)); [destruct G|discriminate].
Qed.
Lemma req_some u : In (EReq u true) (lg a) -> sp a = true /\ tot n winner (stk a) = 0.
Proof.
  intros H. pose proof (i_win n a I1) as W. assert (1 <= nreq (lg a)).
  { destruct (nreq (lg a)) eqn:E; [|lia]. now destruct (req_none E u). }
  destruct (sp a); cbn [Nat.b2n] in W; [split; [reflexivity|lia]|lia].
Qed.
Lemma true_allowed : winner f0 = true -> (forall c m, f0 <> FReqRun c m) -> sig a = Some t -> lst a = [] -> allowed (lg a) (EReq t true).
Proof.
  intros W NR Hs El. destruct (top_winner n a t f0 st Ht Est I1 W) as [Hsp Hn].
  split; [now apply (g_sig a I4)|]. split; [now apply req_none|].
  intros c u Hc. pose proof (g_num a I4 c _ Hc eq_refl) as Hnum. pose proof (g_life a I4 c Hnum) as HL.
  destruct (g_place a I4 c Hnum) as [(v & f & Hf & X)|[H|[H|[H|[H|H]]]]].
  - exfalso. destruct (j_fr n a I2 v f Hf) as [_ G].
    destruct f; try (now destruct X); cbn in X; subst; cbn [fcb JC] in G.
    + destruct (in_oth _ _ _ _ _ _ Est Hf) as [[_ E]|Ho]; [now destruct (NR c more)|].
      pose proof (one_winner n a t f0 st Ht Est I1 v _ W Ho). discriminate.
    + destruct G as (_ & L & _). rewrite L in HL. now apply (life_build_add _ _ HL u).
    + destruct G as (_ & L & _). rewrite L in HL. now apply (life_build_add _ _ HL u).
    + destruct G as (_ & L & _). rewrite L in HL. now apply (life_build_add _ _ HL u).
  - rewrite El in H. destruct H.
  - now left.
  - right. apply (life_dying _ _ _ (or_introl H) HL).
  - right. apply (life_dying _ _ _ (or_intror H) HL).
  - destruct H. congruence.
Qed.

Lemma law_lib a' : lstep t a st f0 a' -> lawful (lg a').
Proof.
  intros H. pose proof true_allowed as TA. pose proof req_some as RS. pose proof req_src as HR.
  pose proof (top_winner n a t f0 st Ht Est I1) as TW.
  pose proof (fun c => one_rm n a t f0 st Ht Est I1 I2 c) as OR. pose proof (fun c => one_ctor n a t f0 st Ht Est I1 I2 c) as OC.
  pose proof top_JL as HT. pose proof (top_J n a t f0 st Est I2) as HJ. pose proof (g_law a I4) as HL. pose proof (g_stop a I4) as HS. pose proof (g_life a I4) as HLf.
  cases H HJ HT; try exact HL; (constructor; [exact HL|]).
  - (* ESignal *) split; [rewrite <- HS; congruence|]. intros u Hu. destruct (g_poss a I4 u Hu). specialize (HR eq_refl). lia.
  - (* EReq false *) apply HS. tauto.
  - apply TA; try discriminate; try reflexivity; tauto.
  - (* EBegin in request_stop *) destruct (TW eq_refl) as [Hsp _]. destruct HJ as [[Hsig _] (C1 & C2 & C3 & C4 & C5 & C6)].
    split; [now apply HS|]. split; [exact C6|]. split; [eapply life_gone; eauto|]. left. now apply (g_sig a I4).
  - apply TA; try discriminate; try reflexivity; tauto.
  - apply TA; try discriminate; try reflexivity; tauto.
  - (* EBegin in the constructor *) destruct HJ as [[Hs _] (C1 & C2 & C3 & C4 & C5 & C6 & C7)]. specialize (HLf c C1). rewrite C2 in HLf.
    split; [now apply HS, Hs|]. split; [exact C7|]. split; [eapply life_gone; [|exact HLf]; discriminate|]. right. split; [tauto|]. now apply life_build_add.
  - (* EAdd *) destruct HJ as [_ (C1 & C2 & C3 & C4)]. specialize (HLf c C1). rewrite C2 in HLf.
    assert (HTn : In (ENew c t) (lg a)) by (destruct ok; tauto).
    split; [exact HTn|]. split; [now apply life_build_add|]. split.
    + intros h1 h2 E Hst. assert (L : late c (lg a)) by (exists h1, h2, t; now split). destruct ok; tauto.
    + intros u Hu. destruct (RS u Hu) as [Hsp Hw]. destruct (g_place a I4 c C1) as [(v & f & Hf & X)|[G|[G|[G|[G|G]]]]].
      * exfalso. destruct (in_oth _ _ _ _ _ _ Est Hf) as [[_ ->]|Ho]; [destruct X|].
        destruct f; try (now destruct X); cbn in X; subst.
        -- destruct (Nat.lt_ge_cases v n) as [Hv|Hv]; [|rewrite (i_out n a I1 v Hv) in Hf; destruct Hf as [Hf|[]]; discriminate].
           pose proof (tot_in n winner (stk a) v _ Hv Hf eq_refl). lia.
        -- specialize (OC c v _ (Nat.eqb_refl c) Ho). cbn in OC. rewrite Nat.eqb_refl in OC. discriminate.
        -- specialize (OC c v _ (Nat.eqb_refl c) Ho). cbn in OC. rewrite Nat.eqb_refl in OC. discriminate.
        -- specialize (OC c v _ (Nat.eqb_refl c) Ho). cbn in OC. rewrite Nat.eqb_refl in OC. discriminate.
      * rewrite (j_empty n a I2 Hsp Hw) in G. destruct G.
      * exact G.
      * congruence.
      * congruence.
      * destruct G. congruence.
  - (* EGone of a callback that was not called *) destruct HJ as [_ (C1 & C2 & C3)].
    assert (Hin : In c (lst a)) by (rewrite H0; apply in_elt). destruct (j_lst n a I2 c Hin) as (_ & _ & _ & _ & _ & Hb).
    split; [exact HT|]. split; [eapply life_gone; [|apply (HLf c C1)]; congruence|]. intros u Hu. destruct Hb. now exists u.
  - (* EGone of a callback that was called *) destruct HJ as [_ (C1 & C2 & C3 & C4)].
    split; [exact HT|]. split; [eapply life_gone; [|apply (HLf c C1)]; congruence|]. intros u Hu.
    destruct (g_act a I4 c u Hu) as [G|G]; [now left|right]. apply act_in in G as (f & Hf & B).
    assert (Htop : In (FRmDrop c) (stk a t)) by (rewrite Est; now left).
    destruct f; try (now destruct B); cbn in B; subst.
    + destruct removed; [|now destruct (j_drop n a I2 t u c _ Htop Hf)].
      destruct (j_self n a I2 u c more Hf) as [G|G]; [congruence|].
      destruct (in_oth _ _ _ _ _ _ Est G) as [[E _]|Ho]; [exact E|]. specialize (OR c u _ (Nat.eqb_refl c) Ho). cbn in OR. rewrite Nat.eqb_refl in OR. discriminate.
    + destruct (j_fr n a I2 u _ Hf) as [_ (_ & L & _)]. congruence.
Qed.

Lemma inv4_lib a' : lstep t a st f0 a' -> inv4 a'.
Proof.
  intros H. destruct (acts_lib a' H) as (A1 & A2 & A3).
  constructor; [now apply fr_lib|now apply num_lib|now apply life_lib|now apply stop_lib|now apply sig_lib|now apply poss_lib|exact A1|exact A2|exact A3|now apply place_lib|now apply law_lib].
Qed.
End Step.

(** ** User code *)
Lemma inv4_objs a x y : inv4 a -> (sr a = 0 -> y = 0) -> inv4 (s_objs a x y).
Proof.
  intros [G1 G2 G3 G4 G5 G6 G7 G8 G9 G10 G11] N. constructor; proj; auto.
  - intros u Hu. destruct (G6 u Hu). split; proj; auto.
  - intros c Hc. destruct (G10 c Hc) as [H|[H|[H|[H|[H|[H1 H2]]]]]]; unfold placed; proj; try tauto. do 5 right. split; proj; auto.
Qed.
Lemma inv4_fr a : inv4 a -> inv4 (s_fr a).
Proof. intros [G1 G2 G3 G4 G5 G6 G7 G8 G9 G10 G11]. constructor; proj; auto. Qed.
Definition query (e : event) : Prop := match e with EQuery _ _ | EPossible _ _ => True | _ => False end.
Lemma inv4_query a e : inv2 n a -> inv4 a -> query e -> (forall u, e = EPossible u false -> dead a) -> allowed (lg a) e -> inv4 (s_lg a e).
Proof.
  intros I2 [G1 G2 G3 G4 G5 G6 G7 G8 G9 G10 G11] Q P L.
  assert (HG : grows a (s_lg a e)) by (eapply grows_snoc; [reflexivity|intros; subst; destruct Q]).
  assert (HI : forall x, (query x -> False) -> (In x (lg a ++ [e]) <-> In x (lg a))).
  { intros x N. rewrite in_snoc. split; [intros [H|<-]; [exact H|now destruct (N Q)]|tauto]. }
  assert (HB : forall c, begun c (lg a ++ [e]) <-> begun c (lg a)) by (intros c; unfold begun; split; intros [u H]; exists u; apply HI in H || apply HI; try exact H; intros []).
  constructor; proj.
  - intros u f Hf. eapply JL_grows; [exact HG| |now apply G1]. intros c Ec. destruct (j_fr n a I2 u f Hf) as [_ K]. rewrite Ec in K. now destruct K.
  - intros c x Hx Ec. apply in_snoc in Hx as [Hx|<-]; [eauto|]. destruct e; try (now destruct Q); discriminate.
  - intros c Hc. apply life_keep; [| | |auto]; intros u ->; destruct Q.
  - rewrite stopped_snoc, G4. split; [tauto|]. intros [H|[u ->]]; [exact H|destruct Q].
  - intros u Hu. apply in_snoc. left. auto.
  - intros u Hu. apply in_snoc in Hu as [Hu|Hu]; [now apply (G6 u)|now apply (P u)].
  - intros c u. rewrite !HI by (intros []). auto.
  - intros c u H. rewrite HI by (intros []). destruct (G8 c u H) as [H1 H2]. split; [exact H1|]. intros v. rewrite HI by (intros []). apply H2.
  - intros c u. rewrite !HI by (intros []). auto.
  - intros c Hc. specialize (G10 c Hc). unfold placed in *. proj. rewrite HB. exact G10.
  - now constructor.
Qed.

Section User.
Context (a : ast) (t : nat) (st : list frame).
Context (Ht : t < n) (Est : stk a t = FUser :: st) (I1 : inv1 n a) (I2 : inv2 n a) (I4 : inv4 a).

Lemma act_push c f u : f <> FUser -> (act c (upd (stk a) t (f :: FUser :: st) u) <-> act c (stk a u)).
Proof. intros N. destruct (Nat.eq_dec u t) as [->|Nu]; [rewrite upd_eq, Est; now apply act_lib|now rewrite upd_neq]. Qed.
Lemma wait_push c f : (exists u g, In g (stk a u) /\ waitf c g) -> exists u g, In g (upd (stk a) t (f :: FUser :: st) u) /\ waitf c g.
Proof. intros (u & g & Hg & W). exists u, g. split; [|exact W]. now apply (user_in a t st Est [f]). Qed.

Lemma inv4_request : inv4 (s_stk a t (FReq :: FUser :: st)).
Proof.
  destruct I4 as [G1 G2 G3 G4 G5 G6 G7 G8 G9 G10 G11]. constructor; proj; auto.
  - intros u f Hf. apply (user_out a t st Est [FReq]) in Hf as [[-> [<-|[]]]|Hf]; [exact I|]. exact (G1 u f Hf).
  - intros c u H. rewrite act_push by discriminate. auto.
  - intros c u. rewrite act_push by discriminate. auto.
  - intros c Hc. destruct (G10 c Hc) as [H|H]; [left; now apply wait_push|right; exact H].
Qed.

Lemma inv4_construct mv : inv4 (s_lg (s_stk (s_num (s_ob a (num a) o_new) (S (num a))) t (FAdd (num a) mv :: FUser :: st)) (ENew (num a) t)).
Proof.
  pose proof I4 as [G1 G2 G3 G4 G5 G6 G7 G8 G9 G10 G11].
  set (a' := s_lg _ _).
  assert (HG : grows a a') by (eapply grows_snoc; [reflexivity|intros c u E; injection E as <- _; lia]).
  assert (HI : forall x, x <> ENew (num a) t -> (In x (lg a ++ [ENew (num a) t]) <-> In x (lg a))).
  { intros x N. rewrite in_snoc. split; [intros [H|H]; [exact H|congruence]|tauto]. }
  assert (HN : forall e, In e (lg a) -> ecb e <> Some (num a)) by (intros e He E; specialize (G2 _ e He E); lia).
  constructor; subst a'; proj.
  - intros u f Hf. apply (user_out a t st Est [FAdd (num a) mv]) in Hf as [[-> [<-|[]]]|Hf]; [cbn [JL]; apply in_snoc; now right|].
    eapply JL_grows; [exact HG| |now apply G1]. intros c Ec. destruct (j_fr n a I2 u f Hf) as [_ K]. rewrite Ec in K. now destruct K.
  - intros c x Hx Ec. apply in_snoc in Hx as [Hx|<-]; [specialize (G2 c x Hx Ec); lia|]. injection Ec as <-. lia.
  - intros c Hc. destruct (Nat.eq_dec c (num a)) as [->|N].
    + rewrite upd_eq. cbn [life_log o_new a_life]. repeat split; intros u; rewrite HI by discriminate; intros H; now apply (HN _ H).
    + rewrite upd_neq by exact N. apply life_keep; try discriminate. apply G3. lia.
  - rewrite stopped_snoc, G4. split; [tauto|]. intros [H|[u H]]; [exact H|discriminate].
  - intros u Hu. apply in_snoc. left. auto.
  - intros u Hu. rewrite HI in Hu by discriminate. exact (G6 u Hu).
  - intros c u. rewrite !HI, act_push by discriminate. auto.
  - intros c u. rewrite act_push by discriminate. intros H. rewrite HI by discriminate. destruct (G8 c u H) as [H1 H2]. split; [exact H1|]. intros v. rewrite HI by discriminate. apply H2.
  - intros c u. rewrite !HI by discriminate. auto.
  - intros c Hc. destruct (Nat.eq_dec c (num a)) as [->|N].
    + left. exists t, (FAdd (num a) mv). proj. rewrite upd_eq. split; [now left|reflexivity].
    + destruct (G10 c ltac:(lia)) as [H|[H|[H|H]]]; unfold placed; proj; rewrite ?upd_neq by exact N.
      * left. now apply wait_push.
      * tauto.
      * right; right; left. now apply begun_more.
      * right; right; right. exact H.
  - constructor; [exact G11|]. cbn [allowed]. intros u H. now apply (HN _ H).
Qed.

Lemma inv4_destroy c : a_life (ob a c) = LAlive -> c < num a ->
  inv4 (s_stk (s_lg (s_ob a c (o_dying (ob a c))) (EDying c t)) t (FRm c :: FUser :: st)).
Proof.
  intros Ea Hc. pose proof I4 as [G1 G2 G3 G4 G5 G6 G7 G8 G9 G10 G11].
  set (a' := s_stk _ _ _).
  assert (HG : grows a a') by (eapply grows_snoc; [reflexivity|intros; discriminate]).
  assert (HI : forall x, x <> EDying c t -> (In x (lg a ++ [EDying c t]) <-> In x (lg a))).
  { intros x N. rewrite in_snoc. split; [intros [H|H]; [exact H|congruence]|tauto]. }
  pose proof (G3 c Hc) as HL. rewrite Ea in HL. destruct HL as (L1 & L2 & L3).
  constructor; subst a'; proj.
  - intros u f Hf. apply (user_out a t st Est [FRm c]) in Hf as [[-> [<-|[]]]|Hf]; [cbn [JL]; apply in_snoc; now right|].
    eapply JL_grows; [exact HG| |now apply G1]. intros d Ec. destruct (j_fr n a I2 u f Hf) as [_ K]. rewrite Ec in K. now destruct K.
  - intros d x Hx Ec. apply in_snoc in Hx as [Hx|<-]; [eauto|]. now injection Ec as <-.
  - intros d Hd. destruct (Nat.eq_dec d c) as [->|N].
    + rewrite upd_eq. cbn [life_log o_dying a_life]. split; [|split].
      * destruct L1 as [u L1]. exists u. apply HI; [discriminate|exact L1].
      * exists t. apply in_snoc. now right.
      * intros u. rewrite HI by discriminate. apply L3.
    + rewrite upd_neq by exact N. apply life_keep; try discriminate; [intros u E; injection E as E _; congruence|]. now apply G3.
  - rewrite stopped_snoc, G4. split; [tauto|]. intros [H|[u H]]; [exact H|discriminate].
  - intros u Hu. apply in_snoc. left. auto.
  - intros u Hu. rewrite HI in Hu by discriminate. exact (G6 u Hu).
  - intros d u. rewrite !HI, act_push by discriminate. auto.
  - intros d u. rewrite act_push by discriminate. intros H. rewrite HI by discriminate. destruct (G8 d u H) as [H1 H2]. split; [exact H1|]. intros v. rewrite HI by discriminate. apply H2.
  - intros d u. rewrite !HI by discriminate. auto.
  - intros d Hd. destruct (Nat.eq_dec d c) as [->|N].
    + right; right; right; left. proj. now rewrite upd_eq.
    + destruct (G10 d Hd) as [H|[H|[H|H]]]; unfold placed; proj; rewrite ?upd_neq by exact N.
      * left. now apply wait_push.
      * tauto.
      * right; right; left. now apply begun_more.
      * right; right; right. exact H.
  - constructor; [exact G11|]. split; [exact L1|exact L2].
Qed.

Lemma inv4_undrop c : a_life (ob a c) = LAlive -> c < num a -> a_st (ob a c) = false ->
  inv4 (s_lg (s_lg (s_ob a c (o_gone (ob a c))) (EDying c t)) (EGone c t)).
Proof.
  intros Ea Hc Es. pose proof I4 as [G1 G2 G3 G4 G5 G6 G7 G8 G9 G10 G11].
  pose proof (j_alive n a I2 c Hc Ea) as Hr. rewrite Es in Hr. symmetry in Hr.
  assert (HF : forall u f, In f (stk a u) -> fcb f <> Some c).
  { intros u f Hf E. destruct (alive_frame n a I2 c u f Ea Hf E) as [X|[]]. destruct (j_fr n a I2 u f Hf) as [_ G].
    destruct f; try (now destruct X); [|destruct removed; [now destruct X|]]; cbn in E; injection E as ->; cbn [fcb JC] in G; intuition congruence. }
  set (a' := s_lg _ _).
  assert (HG : grows a a') by (eapply grows_snoc2; [reflexivity|intros; discriminate|intros; discriminate]).
  assert (HI : forall x, x <> EDying c t -> x <> EGone c t -> (In x ((lg a ++ [EDying c t]) ++ [EGone c t]) <-> In x (lg a))).
  { intros x N N'. rewrite !in_snoc. split; [intros [[H|H]|H]; [exact H|congruence|congruence]|tauto]. }
  pose proof (G3 c Hc) as HL. rewrite Ea in HL. destruct HL as (L1 & L2 & L3).
  constructor; subst a'; proj.
  - intros u f Hf.
    eapply JL_grows; [exact HG| |now apply G1]. intros d Ec. destruct (j_fr n a I2 u f Hf) as [_ K]. rewrite Ec in K. now destruct K.
  - intros d x Hx Ec. apply in_snoc in Hx as [Hx|<-]; [apply in_snoc in Hx as [Hx|<-]; [eauto|]|]; now injection Ec as <-.
  - intros d Hd. destruct (Nat.eq_dec d c) as [->|N].
    + rewrite upd_eq. cbn [life_log o_gone a_life]. split.
      * destruct L1 as [u L1]. exists u. apply HI; [discriminate|discriminate|exact L1].
      * exists t. rewrite !in_snoc. tauto.
    + rewrite upd_neq by exact N. do 2 (apply life_keep; try discriminate; [intros u E; injection E as E _; congruence|]). now apply G3.
  - rewrite !stopped_snoc, G4. split; [tauto|]. intros [[H|[u H]]|[u H]]; [exact H|discriminate|discriminate].
  - intros u Hu. rewrite !in_snoc. left. auto.
  - intros u Hu. rewrite HI in Hu by discriminate. exact (G6 u Hu).
  - intros d u. rewrite !HI by discriminate. auto.
  - intros d u H. rewrite HI by discriminate. destruct (G8 d u H) as [H1 H2]. split; [exact H1|]. intros v. rewrite HI by discriminate. apply H2.
  - intros d u. rewrite !HI by discriminate. auto.
  - intros d Hd. destruct (Nat.eq_dec d c) as [->|N].
    + right; right; right; right; left. proj. now rewrite upd_eq.
    + destruct (G10 d Hd) as [H|[H|[H|H]]]; unfold placed; proj; rewrite ?upd_neq by exact N.
      * left. exact H.
      * tauto.
      * right; right; left. now do 2 apply begun_more.
      * right; right; right. exact H.
  - constructor; [constructor; [exact G11|split; [exact L1|exact L2]]|]. cbn [allowed]. split; [apply in_snoc; now right|]. split.
    + intros u H. apply in_snoc in H as [H|H]; [now apply (L3 u)|discriminate].
    + intros u H. apply in_snoc in H as [H|H]; [|discriminate]. destruct (G7 c u H) as [G|G]; [left; apply in_snoc; now left|].
      exfalso. apply act_in in G as (f & Hf & B). apply (HF u f Hf). destruct f; try (now destruct B); cbn in B; subst; reflexivity.
Qed.

Lemma inv4_return c f st' : st = f :: st' -> bodyf c f -> inv1 n (s_lg (s_stk a t st) (EEnd c t)) -> inv2 n (s_lg (s_stk a t st) (EEnd c t)) ->
  inv4 (s_lg (s_stk a t st) (EEnd c t)).
Proof.
  intros E B I1' I2'. pose proof I4 as [G1 G2 G3 G4 G5 G6 G7 G8 G9 G10 G11].
  set (a' := s_lg _ _).
  assert (NU : f <> FUser) by (intros ->; destruct B).
  assert (Est' : stk a' t = f :: st') by (subst a'; proj; now rewrite upd_eq).
  assert (HA : act c (stk a t)) by (rewrite Est, E; left; split; [reflexivity|exact B]).
  assert (NA : forall u, ~ act c (stk a' u)).
  { intros u Hu. destruct (Nat.eq_dec u t) as [->|N].
    - rewrite Est', act_lib in Hu by exact NU. apply act_in in Hu as (g & Hg & B'). apply (top_body a' t f st' Ht Est' I1' I2' c B t g); [right; now split|exact B'].
    - apply act_in in Hu as (g & Hg & B'). apply (top_body a' t f st' Ht Est' I1' I2' c B u g); [left; now split|exact B']. }
  assert (HG : grows a a') by (eapply grows_snoc; [reflexivity|intros; discriminate]).
  assert (HI : forall x, x <> EEnd c t -> (In x (lg a ++ [EEnd c t]) <-> In x (lg a))).
  { intros x N. rewrite in_snoc. split; [intros [H|H]; [exact H|congruence]|tauto]. }
  assert (HS : forall u g, In g (stk a' u) -> In g (stk a u)).
  { subst a'. proj. intros u g Hg. destruct (Nat.eq_dec u t) as [->|N]; [rewrite upd_eq in Hg; rewrite Est; now right|now rewrite upd_neq in Hg]. }
  assert (HAC : forall d u, act d (stk a u) <-> act d (stk a' u) \/ (d = c /\ u = t)).
  { subst a'. proj. intros d u. destruct (Nat.eq_dec u t) as [->|N]; [rewrite upd_eq, Est|rewrite upd_neq by exact N; tauto].
    rewrite E. split; [intros [[_ B']|H]; [right|now left]|intros [H|[-> _]]; [now right|left; split; [reflexivity|exact B]]].
    split; [|reflexivity]. destruct f; try (now destruct B); cbn in B, B'; congruence. }
  destruct (G8 c t HA) as [HBg HNE].
  constructor.
  - intros u g Hg. eapply JL_grows; [exact HG| |apply G1, HS, Hg]. intros d Ec. destruct (j_fr n a I2 u g (HS u g Hg)) as [_ K]. rewrite Ec in K. now destruct K.
  - subst a'. proj. intros d x Hx Ec. apply in_snoc in Hx as [Hx|<-]; [eauto|]. injection Ec as <-. now apply (G2 c _ HBg).
  - subst a'. proj. intros d Hd. apply life_keep; try discriminate. now apply G3.
  - subst a'. proj. rewrite stopped_snoc, G4. split; [tauto|]. intros [H|[u H]]; [exact H|discriminate].
  - subst a'. proj. intros u Hu. apply in_snoc. left. auto.
  - subst a'. proj. intros u Hu. rewrite HI in Hu by discriminate. exact (G6 u Hu).
  - intros d u H. change (lg a') with (lg a ++ [EEnd c t]) in *. rewrite HI in H by discriminate. rewrite in_snoc.
    destruct (G7 d u H) as [H'|H']; [tauto|]. apply HAC in H' as [H'|[-> ->]]; tauto.
  - intros d u H. change (lg a') with (lg a ++ [EEnd c t]). rewrite HI by discriminate.
    destruct (G8 d u (proj2 (HAC d u) (or_introl H))) as [H1 H2]. split; [exact H1|].
    intros v. rewrite in_snoc. intros [H3|H3]; [now apply (H2 v)|]. injection H3 as -> _. now apply (NA u).
  - intros d u H. change (lg a') with (lg a ++ [EEnd c t]) in *. rewrite HI by discriminate. apply in_snoc in H as [H|H]; [auto|]. injection H as <- <-. exact HBg.
  - intros d Hd. destruct (G10 d Hd) as [(u & g & Hg & W)|[H|[H|H]]].
    + left. exists u, g. split; [|exact W]. subst a'. proj. destruct (Nat.eq_dec u t) as [->|N]; [rewrite upd_eq|now rewrite upd_neq].
      rewrite Est in Hg. destruct Hg as [<-|Hg]; [destruct W|exact Hg].
    + right; left. exact H.
    + right; right; left. now apply begun_more.
    + right; right; right. exact H.
  - constructor; [exact G11|]. split; [exact HBg|exact HNE].
Qed.
End User.

Lemma inv4_user t st a a' : t < n -> stk a t = FUser :: st -> inv1 n a -> inv2 n a -> inv4 a -> ustep n t a st a' -> inv4 a'.
Proof.
  intros Ht Est I1 I2 I4 H. pose proof (inv1_user n t st a a' Ht Est I1 H) as I1'. pose proof (inv2_user n t st a a' Ht Est I1 I2 H) as I2'.
  inversion H; subst; clear H.
  - apply inv4_objs; [exact I4|auto].
  - apply inv4_fr, inv4_objs; [exact I4|auto].
  - apply inv4_objs; [exact I4|lia].
  - apply inv4_fr, inv4_objs; [exact I4|lia].
  - apply inv4_query; [exact I2|exact I4|exact I|discriminate|]. apply (g_stop a I4).
  - apply inv4_query; [exact I2|exact I4|exact I| |].
    + intros u E. injection E as _ E. apply orb_false_elim in E as [E1 E2]. split; [exact E1|]. now destruct (sr a).
    + cbn [allowed]. intros Hs. apply (g_stop a I4) in Hs. now rewrite Hs.
  - now apply inv4_request.
  - now apply inv4_construct.
  - now apply inv4_destroy.
  - now apply inv4_undrop.
  - now eapply inv4_return.
  - now eapply inv4_return.
Qed.
End Threads.
