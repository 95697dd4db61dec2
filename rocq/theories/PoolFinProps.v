(** Property C101: objects whose Finalize uses the pool. *)
From Coq Require Import Permutation ZifyBool ZifyNat.
From Verif Require Import Common PoolModel PoolProps PoolFinModel.

(** The operations of PoolFinModel are those of PoolModel. *)
Lemma fdrop_drop s o : drop s o = let* (s', _) := fdrop s o in Ok s'.
Proof.
  destruct o as [p|]; cbn [drop fdrop rbind]; auto. destruct (refs s p) as [|k]; auto. destruct (k =? 0); auto.
  destruct (deleter _ p); reflexivity.
Qed.
Lemma fstore_store s v x : store s v x = let* (s', _) := fstore s v x in Ok s'.
Proof. unfold store, fstore. destruct (nth_error _ v); auto. apply fdrop_drop. Qed.
Lemma fstep_pstep s o : pstep s o = let* r := fstep s o in Ok (fst (fst r), snd (fst r)).
Proof.
  destruct o; cbn [pstep fstep]; unfold guard.
  - destruct (exists_ s); auto. destruct (make s) as [p s']. rewrite fstore_store. destruct (fstore s' v _) as [[? ?]| |]; reflexivity.
  - destruct (exists_ s); auto. cbv zeta. rewrite fstore_store. destruct (fstore _ v _) as [[? ?]| |]; reflexivity.
  - destruct (nth_error (vars s) w); auto. cbv zeta. rewrite fstore_store. destruct (fstore _ v _) as [[? ?]| |]; reflexivity.
  - rewrite fstore_store. destruct (fstore _ v _) as [[? ?]| |]; reflexivity.
  - destruct (exists_ s); auto.
  - destruct (exists_ s); auto. destruct (destroy_pool s); reflexivity.
Qed.

Definition fsimple (n : nat) (o : fop) : Prop := match o with FPool q => simple n q | FThis => True end.
Definition makes (o : fop) : bool := match o with FPool (PMake _) => true | _ => false end.

Lemma prun_snoc tr : forall s s1 l o s2 a, prun s tr = Ok (s1, l) -> pstep s1 o = Ok (s2, a) -> prun s (tr ++ [o]) = Ok (s2, l ++ [a]).
Proof.
  induction tr as [|q tr IH]; intros s s1 l o s2 a H1 H2; cbn [prun app] in *.
  - injection H1 as <- <-. cbn. now rewrite H2.
  - destruct (pstep s q) as [[s3 b]| |]; try discriminate. cbn [rbind] in *. destruct (prun s3 tr) as [[s4 l4]| |] eqn:E; try discriminate.
    cbn [rbind] in H1. injection H1 as <- <-. rewrite (IH _ _ _ _ _ _ E H2). reflexivity.
Qed.
Lemma uruns_snoc u tr u1 l o u2 a : uruns u tr u1 l -> allowed u1 o -> ustep u1 o u2 a -> uruns u (tr ++ [o]) u2 (l ++ [a]).
Proof. intros R A S. induction R; cbn; [econstructor; eauto; constructor|econstructor; eauto]. Qed.

Lemma fdrop_fin s o s' p : fdrop s o = Ok (s', Some p) -> o = Some p /\ next s' = next s /\ In p (m_free s').
Proof.
  destruct o as [q|]; cbn; [|discriminate]. destruct (refs s q) as [|k]; [discriminate|]. destruct (k =? 0); [|discriminate].
  unfold deleter, guard. cbn. destruct (exists_ s); [|discriminate]. destruct (erase _ q); try discriminate. cbn. intros [= <- ->].
  cbn. split; auto. split; auto. apply in_or_app. right. now left.
Qed.
Lemma fdrop_next s o s' f : fdrop s o = Ok (s', f) -> next s' = next s.
Proof.
  destruct o as [q|]; cbn; [|now intros [= <- <-]]. destruct (refs s q) as [|k]; [discriminate|]. destruct (k =? 0); [|now intros [= <- <-]].
  unfold deleter, guard. cbn. destruct (exists_ s); [|discriminate]. destruct (erase _ q); try discriminate. cbn. now intros [= <- <-].
Qed.
Lemma clear_next f : forall s, next (clear_from f s) = next s.
Proof. induction f as [|p f IH]; intros s; cbn; auto. now rewrite IH. Qed.
Lemma make_next s p s' : make s = (p, s') -> vars s' = vars s /\ next s <= next s'.
Proof. unfold make. destruct (m_free s); intros [= <- <-]; cbn; auto. Qed.

(** The object whose Finalize is called was referred to, and it is free now. *)
Lemma fstep_fin s o s' a f : fstep s o = Ok (s', a, f) ->
  next s <= next s' /\ match f with Some p => In (Some p) (vars s) /\ In p (m_free s') | None => True end.
Proof.
  assert (Q : forall s0 v x s1 f0, fstore s0 v x = Ok (s1, f0) ->
    next s1 = next s0 /\ match f0 with Some p => In (Some p) (vars s0) /\ In p (m_free s1) | None => True end).
  { intros s0 v x s1 f0. unfold fstore. destruct (nth_error (vars s0) v) as [old|] eqn:E; [|discriminate]. intros H.
    split; [apply fdrop_next in H; auto|]. destruct f0 as [p|]; auto. apply fdrop_fin in H as (-> & _ & H). split; auto.
    eapply nth_error_In; eauto. }
  destruct o; cbn [fstep]; unfold guard.
  - destruct (exists_ s); [|discriminate]. destruct (make s) as [p s1] eqn:M. destruct (fstore s1 v _) as [[s2 f2]| |] eqn:E; try discriminate.
    cbn. intros [= <- <- <-]. apply Q in E. apply make_next in M as [Mv Mn]. rewrite Mv in E. destruct E. split; [lia|auto].
  - destruct (exists_ s); [|discriminate]. cbv zeta. destruct (fstore _ v _) as [[s2 f2]| |] eqn:E; try discriminate.
    cbn. intros [= <- <- <-]. apply Q in E. cbn in E. destruct E. split; [lia|auto].
  - destruct (nth_error (vars s) w) as [x|]; [|discriminate]. cbv zeta. destruct (fstore _ v _) as [[s2 f2]| |] eqn:E; try discriminate.
    cbn. intros [= <- <- <-]. apply Q in E. destruct x; cbn in E; destruct E; (split; [lia|auto]).
  - destruct (fstore _ v _) as [[s2 f2]| |] eqn:E; try discriminate. cbn. intros [= <- <- <-]. apply Q in E. destruct E; split; [lia|auto].
  - destruct (exists_ s); [|discriminate]. cbn. intros [= <- <- <-]. unfold clear. rewrite clear_next. auto.
  - destruct (exists_ s); [|discriminate]. unfold destroy_pool. destruct (m_used s); [|discriminate]. cbn. intros [= <- <- <-]. cbn. unfold clear. rewrite clear_next. auto.
Qed.

Section Fin.
Context (fin : nat -> nat -> list fop) (n : nat) (FS : forall p k, Forall (fsimple n) (fin p k)).

(** The calls in progress: Finalizes of objects, and the program itself below them. *)
Definition calls_ok (m : mach) : Prop :=
  stack m = [] \/ exists fs k, stack m = fs ++ [(None, k)] /\ (forall f, In f fs -> fst f <> None) /\ ~ In FThis k.
Record minv (m : mach) (tr : list pop_) (l : list (option nat)) (u : user) : Prop := {
  m_simple : Forall (simple n) tr;
  m_run : prun (pinit n) tr = Ok (pl m, l);
  m_spec : uruns (uinit n) tr u l;
  m_rel : rel u (pl m);
  m_open : open_ u = true;
  m_len : length (ptrs u) = n;
  m_frames : Forall (fun f => Forall (fsimple n) (snd f) /\ match fst f with Some p => p < next (pl m) | None => True end) (stack m);
  m_calls : calls_ok m }.

Lemma minv_start os : Forall (simple n) os -> minv (mstart n os) [] [] (uinit n).
Proof.
  intros F. constructor; [constructor|reflexivity|constructor|apply rel_init|reflexivity|apply repeat_length| |].
  - constructor; [|constructor]. split; [|exact I]. cbn. apply Forall_forall. intros f Hi. apply in_map_iff in Hi as (o & <- & Hi). cbn. rewrite Forall_forall in F. auto.
  - right. exists [], (map FPool os). repeat split; auto. intros Hi. apply in_map_iff in Hi as (o & E & _). discriminate.
Qed.

Lemma simple_allowed u o : simple n o -> open_ u = true -> length (ptrs u) = n -> allowed u o.
Proof. intros S O L. destruct o; cbn in *; subst; tauto. Qed.

(** A step goes on, or ends, or uses an object that has been destroyed. *)
Lemma mstep_inv m tr l u : minv m tr l u ->
  match mstep fin m with
  | Ok (Some m') => exists tr' l' u', minv m' tr' l' u'
  | Ok None => stack m = []
  | UB => exists p k r, stack m = (Some p, FThis :: k) :: r /\ In p (deleted (pl m))
  | Throw _ => False
  end.
Proof.
  intros [S R U RL O L F C]. unfold mstep. destruct (stack m) as [|[o [|[q|] k]] r] eqn:E; auto.
  - (* the end of a call *)
    replace (match o with Some _ | _ => Ok (Some (Mach (pl m) r (fins m) (given m))) end) with (Ok (Some (Mach (pl m) r (fins m) (given m)))) by (destruct o; auto).
    exists tr, l, u. constructor; auto; cbn.
    + now inversion_clear F.
    + destruct C as [C|(fs & k & C & C1 & C2)]; [congruence|]. rewrite E in C. destruct fs as [|f fs]; cbn in C.
      * injection C as -> <- ->. now left.
      * injection C as <- ->. right. exists fs, k. repeat split; auto. intros g Hg. apply C1. now right.
  - (* an operation *)
    inversion_clear F as [|? ? [F1 F2] F3]. cbn in F1. inversion_clear F1 as [|? ? Fq Fk]. cbn in Fq.
    assert (Al : allowed u q) by now apply simple_allowed.
    destruct (step_rel u (pl m) q RL Al) as (s' & u' & a & P & US & RL').
    rewrite fstep_pstep in P. destruct (fstep (pl m) q) as [[[s1 a1] f1]| |] eqn:EF; try discriminate. cbn in P. injection P as -> ->.
    assert (PS : pstep (pl m) q = Ok (s', a)) by (rewrite fstep_pstep, EF; reflexivity).
    destruct (fstep_fin _ _ _ _ _ EF) as [Nx Fin]. destruct (simple_step n u q u' a Fq O L US) as [O' L'].
    assert (Fr : Forall (fun f => Forall (fsimple n) (snd f) /\ match fst f with Some p => p < next s' | None => True end) ((o, k) :: r)).
    { constructor; [split; [exact Fk|]; cbn in *; destruct o; auto; lia|]. eapply Forall_impl; [|exact F3]. intros [g1 g2] [G1 G2]. split; auto. cbn in *. destruct g1; auto; lia. }
    assert (Cc : forall fs, (forall f, In f fs -> fst f <> None) -> exists fs' k', fs ++ (o, k) :: r = fs' ++ [(None, k')] /\ (forall f, In f fs' -> fst f <> None) /\ ~ In FThis k').
    { intros fs Hfs. destruct C as [C|(fs' & k' & C & C1 & C2)]; [congruence|]. rewrite E in C. destruct fs' as [|f fs']; cbn in C.
      - injection C as -> <- ->. exists fs, k. split; auto. split; auto. intros Hi. apply C2. now right.
      - injection C as <- ->. exists (fs ++ (o, k) :: fs'), k'. rewrite <- app_assoc. split; auto. split; auto.
        intros g Hg. apply in_app_iff in Hg as [Hg|[<-|Hg]]; auto; [|apply C1; now right]. apply (C1 (o, FPool q :: k)). now left. }
    destruct o as [ob|]; cbn [rbind]; (exists (tr ++ [q]), (l ++ [a]), u'; constructor; cbn [pl stack fins given]);
      try (destruct f1; cbn [pl]); auto;
      try (apply Forall_app; split; auto; fail); try (eapply prun_snoc; eauto; fail); try (eapply uruns_snoc; eauto; fail).
    all: try (constructor; [split; [apply FS|]; cbn; destruct Fin as [Fi _]; rewrite (r_vars _ _ RL) in Fi; apply (r_live _ _ RL) in Fi; rewrite <- (r_next _ _ RL) in Fi; lia|exact Fr]).
    all: right; cbn [stack].
    all: try (apply (Cc []); intros f []).
    all: match goal with |- context [(Some ?w, ?x) :: _ :: _] => apply (Cc [(Some w, x)]); intros f [<-|[]]; discriminate end.
  - (* a use of the object *)
    inversion_clear F as [|? ? [F1 F2] F3]. cbn in F1, F2. inversion_clear F1 as [|? ? Fq Fk].
    destruct o as [p|].
    + unfold guard. destruct (existsb (Nat.eqb p) (deleted (pl m))) eqn:Ed; cbn.
      * exists p, k, r. split; auto. apply existsb_exists in Ed as (z & Hz & Ez). apply Nat.eqb_eq in Ez. now subst.
      * exists tr, l, u. constructor; auto; cbn [stack pl]; [constructor; [split; assumption|assumption]|].
        right. cbn [stack]. destruct C as [C|(fs & k2 & C & C1 & C2)]; [congruence|]. rewrite E in C. destruct fs as [|f fs]; cbn in C; [discriminate|].
        injection C as <- ->. exists ((Some p, k) :: fs), k2. split; [reflexivity|]. split; [|assumption]. intros g [<-|Hg]; [discriminate|]. apply C1. now right.
    + exfalso. destruct C as [C|(fs & k' & C & C1 & C2)]; [congruence|]. rewrite E in C. destruct fs as [|f fs]; cbn in C.
      * injection C as <- ->. apply C2. now left.
      * injection C as <- ->. apply (C1 (None, FThis :: k)); [now left|reflexivity].
Qed.
End Fin.

Section Run.
Context (fin : nat -> nat -> list fop) (n : nat) (FS : forall p k, Forall (fsimple n) (fin p k)).

(** A property of the machine that every step keeps. *)
Lemma mrun_keeps (P : mach -> Prop) :
  (forall m tr l u m', minv n m tr l u -> P m -> mstep fin m = Ok (Some m') -> P m') ->
  forall k m tr l u m', minv n m tr l u -> P m -> mrun fin k m = Ok m' -> P m' /\ exists tr' l' u', minv n m' tr' l' u'.
Proof.
  intros K k. induction k as [|k IH]; intros m tr l u m' I Pm H; cbn [mrun] in H.
  - injection H as <-. eauto.
  - pose proof (mstep_inv fin n FS m tr l u I) as St. destruct (mstep fin m) as [[m1|]| |] eqn:E; try discriminate; cbn [rbind] in H.
    + destruct St as (tr1 & l1 & u1 & I1). eapply IH; eauto.
    + injection H as <-. eauto.
Qed.
Lemma mrun_outcome k : forall m tr l u, minv n m tr l u ->
  match mrun fin k m with
  | Ok m' => exists tr' l' u', minv n m' tr' l' u'
  | UB => exists j m' p s r, j < k /\ mrun fin j m = Ok m' /\ stack m' = (Some p, FThis :: s) :: r /\ In p (deleted (pl m'))
  | Throw _ => False
  end.
Proof.
  induction k as [|k IH]; intros m tr l u I; cbn [mrun]; [eauto|].
  pose proof (mstep_inv fin n FS m tr l u I) as St. destruct (mstep fin m) as [[m1|]| |] eqn:E; cbn [rbind]; auto.
  - destruct St as (tr1 & l1 & u1 & I1). pose proof (IH _ _ _ _ I1) as H. destruct (mrun fin k m1); auto.
    destruct H as (j & m' & p & s & r & Hj & Hr & Hs & Hd). exists (S j), m', p, s, r. split; [lia|]. split; auto. cbn [mrun]. now rewrite E.
  - eauto.
  - destruct St as (p & s & r & Hs & Hd). exists 0, m, p, s, r. split; [lia|]. auto.
Qed.
End Run.

(** ** Theorems *)

(** What Finalize does with the pool: whatever it does, the pool has the state that the same
    operations, one after another, would give it; and this sequence fulfils the specification
    of the pool.  The only way to undefined behaviour is that Finalize uses its own object
    after the object has been destroyed. *)
Theorem pool_finalize_correct : forall fin n os k,
  (forall p i, Forall (fsimple n) (fin p i)) -> Forall (simple n) os ->
  match mrun fin k (mstart n os) with
  | Ok m => exists tr l u, Forall (simple n) tr /\ prun (pinit n) tr = Ok (pl m, l) /\ uruns (uinit n) tr u l /\ vars (pl m) = ptrs u
  | UB => exists j m p s r, j < k /\ mrun fin j (mstart n os) = Ok m /\ stack m = (Some p, FThis :: s) :: r /\ In p (deleted (pl m))
  | Throw _ => False
  end.
Proof.
  intros fin n os k FS S. pose proof (mrun_outcome fin n FS k _ _ _ _ (minv_start n os S)) as H.
  destruct (mrun fin k (mstart n os)); auto. destruct H as (tr & l & u & [I1 I2 I3 I4 I5 I6 I7 I8]). exists tr, l, u.
  split; auto. split; auto. split; auto. apply I4.
Qed.
Print Assumptions pool_finalize_correct.

(** A Finalize that does not destroy the free objects may use its own object at any time,
    whatever else it does. *)
Definition clears (o : fop) : bool := match o with FPool PClear => true | _ => false end.

Lemma fdrop_deleted s o s' f : fdrop s o = Ok (s', f) -> deleted s' = deleted s.
Proof.
  destruct o as [q|]; cbn; [|now intros [= <- <-]]. destruct (refs s q) as [|k]; [discriminate|]. destruct (k =? 0); [|now intros [= <- <-]].
  unfold deleter, guard. cbn. destruct (exists_ s); [|discriminate]. destruct (erase _ q); try discriminate. cbn. now intros [= <- <-].
Qed.
Lemma fstep_deleted s o s' a f : fstep s o = Ok (s', a, f) -> o <> PClear -> o <> PDestroy -> deleted s' = deleted s.
Proof.
  assert (Q : forall s0 v x s1 f0, fstore s0 v x = Ok (s1, f0) -> deleted s1 = deleted s0).
  { intros s0 v x s1 f0. unfold fstore. destruct (nth_error (vars s0) v) as [old|]; [|discriminate]. intros H. now apply fdrop_deleted in H. }
  destruct o; cbn [fstep]; unfold guard; try congruence.
  - destruct (exists_ s); [|discriminate]. destruct (make s) as [p s1] eqn:M. destruct (fstore s1 v _) as [[s2 f2]| |] eqn:E; try discriminate.
    cbn. intros [= <- <- <-] _ _. apply Q in E. rewrite E. unfold make in M. destruct (m_free s); now injection M as <- <-.
  - destruct (exists_ s); [|discriminate]. cbv zeta. destruct (fstore _ v _) as [[s2 f2]| |] eqn:E; try discriminate.
    cbn. intros [= <- <- <-] _ _. now apply Q in E.
  - destruct (nth_error (vars s) w) as [x|]; [|discriminate]. cbv zeta. destruct (fstore _ v _) as [[s2 f2]| |] eqn:E; try discriminate.
    cbn. intros [= <- <- <-] _ _. apply Q in E. now destruct x.
  - destruct (fstore _ v _) as [[s2 f2]| |] eqn:E; try discriminate. cbn. intros [= <- <- <-] _ _. now apply Q in E.
Qed.

Definition top_live (m : mach) : Prop :=
  (forall p, In (Some p) (map fst (stack m)) -> ~ In p (deleted (pl m))) /\
  Forall (fun f => match fst f with Some _ => existsb clears (snd f) = false | None => True end) (stack m).

Lemma top_live_step fin n m tr l u m' : (forall p k, Forall (fsimple n) (fin p k)) -> (forall p k, existsb clears (fin p k) = false) ->
  minv n m tr l u -> top_live m -> mstep fin m = Ok (Some m') -> top_live m'.
Proof.
  intros FS NC I [T1 T2] H. destruct I as [I1 I2 I3 I4 I5 I6 I7 I8]. unfold mstep in H. destruct (stack m) as [|[o [|q k]] r] eqn:E; [discriminate| |].
  - assert (G : m' = Mach (pl m) r (fins m) (given m)) by (destruct o; now injection H). subst m'. split; cbn [pl stack].
    + intros p Hp. apply T1. now right.
    + now inversion T2.
  - inversion I7 as [|? ? [Fo _] _]; subst. cbn [snd] in Fo. inversion Fo as [|? ? Fq Fk]; subst. inversion T2 as [|? ? To Tr]; subst. cbn [fst snd] in To.
    assert (To' : match o with Some _ => existsb clears k = false | None => True end) by (destruct o; auto; cbn in To; now apply orb_false_elim in To).
    destruct q as [q|].
    2:{ destruct o as [p|]; [|discriminate]. unfold guard in H. destruct (negb _); [|discriminate]. injection H as <-. split; cbn [pl stack]; [exact T1|constructor; auto]. }
    assert (H' : (let* (s', a, f) := fstep (pl m) q in
      Ok (Some match f with Some p => Mach s' ((Some p, fin p (fins m)) :: (o, k) :: r) (S (fins m)) (match a with Some p0 => (p0, map fst (stack m)) :: given m | None => given m end)
               | None => Mach s' ((o, k) :: r) (fins m) (match a with Some p => (p, map fst (stack m)) :: given m | None => given m end) end)) = Ok (Some m')) by (destruct o; rewrite E; exact H).
    clear H. destruct (fstep (pl m) q) as [[[s' a] f]| |] eqn:EF; try discriminate. cbn [rbind] in H'.
    assert (Al : allowed u q) by (eapply simple_allowed; eauto).
    destruct (step_rel u (pl m) q I4 Al) as (s2 & u' & a' & P & US & RL'). rewrite fstep_pstep, EF in P. cbn in P. injection P as <- <-.
    destruct (fstep_fin _ _ _ _ _ EF) as [Nx Fin].
    (* below the program itself there is nothing; so either it is a Finalize, which does not clear, or there is no Finalize *)
    assert (K : (forall p, In (Some p) (map fst ((o, k) :: r)) -> ~ In p (deleted s'))).
    { assert (De : (q = PClear /\ r = [] /\ o = None) \/ q <> PClear).
      { destruct o as [p|].
        - right. intros ->. cbn in To. discriminate.
        - destruct I8 as [C|(fs & k' & C & C1 & C2)]; [congruence|]. rewrite E in C. destruct fs as [|f0 fs]; cbn in C.
          + injection C as _ ->. destruct q; auto; right; discriminate.
          + injection C as <- ->. exfalso. apply (C1 (None, FPool q :: k)); [now left|reflexivity]. }
      destruct De as [(-> & -> & ->)|De]; [intros p [Hp|[]]; discriminate|].
      intros p Hp. rewrite (fstep_deleted _ _ _ _ _ EF De); [apply T1; exact Hp|]. intros ->. exact Fq. }
    destruct f as [p|]; injection H' as <-; split; cbn [pl stack].
    + intros p0 [Hp|Hp]; [|now apply K]. cbn in Hp. injection Hp as <-. destruct Fin as [_ Fi]. apply (r_free _ _ RL') in Fi.
      rewrite (r_gone _ _ RL'). apply Fi.
    + constructor; [cbn; apply NC|constructor; auto].
    + exact K.
    + constructor; auto.
Qed.
Theorem pool_finalize_this_safe : forall fin n os k,
  (forall p i, Forall (fsimple n) (fin p i)) -> Forall (simple n) os ->
  (forall p i, existsb clears (fin p i) = false) ->
  exists m, mrun fin k (mstart n os) = Ok m /\ forall p, In (Some p) (map fst (stack m)) -> ~ In p (deleted (pl m)).
Proof.
  intros fin n os k FS S NC.
  assert (T : top_live (mstart n os)) by (split; [intros p [Hp|[]]; discriminate|constructor; cbn; auto]).
  assert (K : forall m tr l u m', minv n m tr l u -> top_live m -> mstep fin m = Ok (Some m') -> top_live m') by (intros; eapply top_live_step; eauto).
  pose proof (mrun_outcome fin n FS k _ _ _ _ (minv_start n os S)) as H.
  destruct (mrun fin k (mstart n os)) as [m| |] eqn:E; [|destruct H|].
  - exists m. split; auto. apply (mrun_keeps fin n FS top_live K _ _ _ _ _ _ (minv_start n os S) T E).
  - exfalso. destruct H as (j & m & p & s & r & _ & Hr & Hs & Hd).
    destruct (mrun_keeps fin n FS top_live K _ _ _ _ _ _ (minv_start n os S) T Hr) as [[T1 _] _]. apply (T1 p); auto. rewrite Hs. now left.
Qed.
Print Assumptions pool_finalize_this_safe.

(** If no Finalize calls make(), the object that is being finalized is not handed out to
    anybody before its Finalize has returned.  Partial: the code hands it out if Finalize
    calls make(), see [pool_finalize_make_refuted]. *)
Definition handout_ok (m : mach) : Prop :=
  (forall p cs, In (p, cs) (given m) -> ~ In (Some p) cs) /\
  Forall (fun f => match fst f with Some _ => existsb makes (snd f) = false | None => True end) (stack m).
Lemma fstep_answer s o s' p f : fstep s o = Ok (s', Some p, f) -> (exists v, o = PMake v) \/ p = next s.
Proof.
  destruct o; cbn [fstep]; unfold guard; eauto.
  - destruct (exists_ s); [|discriminate]. cbv zeta. destruct (fstore _ v _) as [[s2 f2]| |]; try discriminate. cbn. intros [= <- <- <-]. auto.
  - destruct (nth_error (vars s) w); [|discriminate]. cbv zeta. destruct (fstore _ v _) as [[s2 f2]| |]; discriminate.
  - destruct (fstore s v None) as [[s2 f2]| |]; discriminate.
  - destruct (exists_ s); discriminate.
  - destruct (exists_ s); [|discriminate]. destruct (destroy_pool s); discriminate.
Qed.
Lemma handout_step fin n m tr l u m' : (forall p k, existsb makes (fin p k) = false) ->
  minv n m tr l u -> handout_ok m -> mstep fin m = Ok (Some m') -> handout_ok m'.
Proof.
  intros NC I [T1 T2] H. destruct I as [I1 I2 I3 I4 I5 I6 I7 I8]. unfold mstep in H. destruct (stack m) as [|[o [|q k]] r] eqn:E; [discriminate| |].
  - assert (G : m' = Mach (pl m) r (fins m) (given m)) by (destruct o; now injection H). subst m'. split; cbn [given stack]; auto. now inversion T2.
  - inversion T2 as [|? ? To Tr]; subst. cbn [fst snd] in To.
    assert (To' : match o with Some _ => existsb makes k = false | None => True end) by (destruct o; auto; cbn in To; now apply orb_false_elim in To).
    destruct q as [q|].
    2:{ destruct o as [p|]; [|discriminate]. unfold guard in H. destruct (negb _); [|discriminate]. injection H as <-. split; cbn [given stack]; [exact T1|constructor; auto]. }
    assert (H' : (let* (s', a, f) := fstep (pl m) q in
      Ok (Some match f with Some p => Mach s' ((Some p, fin p (fins m)) :: (o, k) :: r) (S (fins m)) (match a with Some p0 => (p0, map fst (stack m)) :: given m | None => given m end)
               | None => Mach s' ((o, k) :: r) (fins m) (match a with Some p => (p, map fst (stack m)) :: given m | None => given m end) end)) = Ok (Some m')) by (destruct o; rewrite E; exact H).
    clear H. destruct (fstep (pl m) q) as [[[s' a] f]| |] eqn:EF; try discriminate. cbn [rbind] in H'.
    assert (K : forall p cs, In (p, cs) (match a with Some p0 => (p0, map fst (stack m)) :: given m | None => given m end) -> ~ In (Some p) cs).
    { destruct a as [p0|]; [|exact T1]. intros p cs [Hp|Hp]; [|now apply T1]. injection Hp as <- <-. intros Hi.
      destruct (fstep_answer _ _ _ _ _ EF) as [(v & ->)| ->].
      - destruct o as [ob|]; [cbn in To; discriminate|].
        destruct I8 as [C|(fs & k' & C & C1 & C2)]; [congruence|]. rewrite E in C. destruct fs as [|f0 fs]; cbn in C.
        + injection C as _ ->. rewrite E in Hi. destruct Hi as [Hi|[]]. discriminate.
        + injection C as <- ->. apply (C1 (None, FPool (PMake v) :: k)); [now left|reflexivity].
      - apply in_map_iff in Hi as ([g1 g2] & Eg & Hg). cbn in Eg. subst g1. rewrite <- E, Forall_forall in I7. destruct (I7 _ Hg) as [_ B]. cbn in B. lia. }
    destruct f as [p|]; injection H' as <-; split; cbn [given stack]; auto.
    constructor; [cbn; apply NC|constructor; auto].
Qed.
Theorem pool_finalize_handout_partial : forall fin n os k m,
  (forall p i, Forall (fsimple n) (fin p i)) -> Forall (simple n) os ->
  (forall p i, existsb makes (fin p i) = false) ->
  mrun fin k (mstart n os) = Ok m ->
  forall p calls, In (p, calls) (given m) -> ~ In (Some p) calls.
Proof.
  intros fin n os k m FS S NM H.
  assert (T : handout_ok (mstart n os)) by (split; [intros p cs []|constructor; cbn; auto]).
  assert (K : forall m tr l u m', minv n m tr l u -> handout_ok m -> mstep fin m = Ok (Some m') -> handout_ok m') by (intros; eapply handout_step; eauto).
  apply (mrun_keeps fin n FS handout_ok K _ _ _ _ _ _ (minv_start n os S) T H).
Qed.
Print Assumptions pool_finalize_handout_partial.

(** The code hands out the object that is being finalized if Finalize calls make(): Deleter
    puts the object among the free ones before it calls Finalize. *)
Theorem pool_finalize_make_refuted : exists fin n os k m p calls,
  (forall p i, Forall (fsimple n) (fin p i)) /\ Forall (simple n) os /\
  mrun fin k (mstart n os) = Ok m /\ In (p, Some p :: calls) (given m).
Proof.
  set (f := fun _ i : nat => if i =? 0 then [FPool (PMake 1)] else []).
  assert (H : match mrun f 3 (mstart 2 [PMake 0; PReset 0]) with Ok m => In (0, [Some 0; None]) (given m) | _ => False end) by (vm_compute; auto).
  destruct (mrun f 3 (mstart 2 [PMake 0; PReset 0])) as [m| |] eqn:E; try contradiction.
  exists f, 2, [PMake 0; PReset 0], 3, m, 0, [None].
  split; [intros p i; unfold f; destruct (i =? 0); repeat constructor|]. split; [repeat constructor|]. auto.
Qed.
Print Assumptions pool_finalize_make_refuted.

(** A Finalize that clears the pool and then uses its own object has undefined behaviour:
    clear() deletes the object whose Finalize is running. *)
Theorem pool_finalize_clear_refuted : exists fin n os k,
  (forall p i, Forall (fsimple n) (fin p i)) /\ Forall (simple n) os /\ mrun fin k (mstart n os) = UB.
Proof.
  exists (fun _ i => [FPool PClear; FThis]), 1, [PMake 0; PReset 0], 4.
  split; [intros p i; repeat constructor|]. split; [repeat constructor|]. vm_compute. reflexivity.
Qed.
Print Assumptions pool_finalize_clear_refuted.

(** A Finalize that takes an object from the pool and gives it back calls itself without
    end: it is its own object that it takes, so the number of calls in progress has no
    bound. *)
Lemma deeper fin : fin = (fun _ _ => [FPool (PMake 0); FPool (PReset 0)]) -> forall m r,
  vars (pl m) = [None] -> refs (pl m) 0 = 0 -> m_free (pl m) = [0] -> m_used (pl m) = [] -> exists_ (pl m) = true -> stack m = r -> r = (Some 0, fin 0 0) :: tl r ->
  exists m', mrun fin 2 m = Ok m' /\ length (stack m') = S (length (stack m)) /\
    vars (pl m') = [None] /\ refs (pl m') 0 = 0 /\ m_free (pl m') = [0] /\ m_used (pl m') = [] /\ exists_ (pl m') = true /\ stack m' = (Some 0, fin 0 0) :: tl (stack m').
Proof.
  intros -> [[vs rf fr us nx de ex] st fs gv] r. cbn [pl vars refs m_free m_used exists_ stack]. intros -> R -> -> -> -> E. rewrite E.
  set (rr := tl r). clearbody rr.
  eexists. split; [cbn; unfold fstore; cbn; rewrite ?upd_eq; cbn; rewrite ?upd_eq; cbn; reflexivity|]. cbn. rewrite ?upd_eq. cbn. auto 10.
Qed.
Theorem pool_finalize_recursion_refuted : exists fin n os,
  (forall p i, Forall (fsimple n) (fin p i)) /\ Forall (simple n) os /\
  forall d, exists k m, mrun fin k (mstart n os) = Ok m /\ d <= length (stack m).
Proof.
  set (f := fun _ _ : nat => [FPool (PMake 0); FPool (PReset 0)]). exists f, 1, [PMake 0; PReset 0].
  split; [intros p i; repeat constructor|]. split; [repeat constructor|].
  intros d. exists (d + d + 2).
  assert (Add : forall a b m m1, mrun f a m = Ok m1 -> mrun f (a + b) m = mrun f b m1 \/ stack m1 = []).
  { induction a as [|a IH]; intros b m m1 H; cbn [mrun plus] in *; [injection H as <-; auto|].
    destruct (mstep f m) as [[m2|]| |] eqn:E; try discriminate; cbn [rbind] in *; auto.
    injection H as <-. right. unfold mstep in E. destruct (stack m) as [|[[o|] [|[q|] k]] r]; auto; try discriminate;
      try (destruct (fstep (pl m) q) as [[[? ?] ?]| |]; discriminate). unfold guard in E. destruct (negb _); discriminate. }
  assert (Q : exists m, mrun f (d + d + 2) (mstart 1 [PMake 0; PReset 0]) = Ok m /\ d <= length (stack m) /\
    vars (pl m) = [None] /\ refs (pl m) 0 = 0 /\ m_free (pl m) = [0] /\ m_used (pl m) = [] /\ exists_ (pl m) = true /\ stack m = (Some 0, f 0 0) :: tl (stack m)).
  { induction d as [|d (m & H & Hl & H1 & H2 & H3 & H4 & H5 & H6)].
    - eexists. split; [reflexivity|]. cbn. auto 10 with arith.
    - destruct (deeper f eq_refl m (stack m) H1 H2 H3 H4 H5 eq_refl H6) as (m' & R' & L' & Rest).
      exists m'. split; [|split; [lia|exact Rest]].
      replace (S d + S d + 2) with ((d + d + 2) + 2) by lia. destruct (Add _ 2 _ _ H) as [E|E]; [now rewrite E|]. rewrite E in H6. discriminate. }
  destruct Q as (m & H & Hl & _). eauto.
Qed.
Print Assumptions pool_finalize_recursion_refuted.

(** ** A case: the Finalize of the first object adds another, and makes nothing. *)
Definition ex_fin (p i : nat) : list fop := if p =? 0 then [FPool (PAdd 1); FThis; FPool (PReset 1); FThis] else [FThis].
Example ex_pool_fin :
  match mrun ex_fin 20 (mstart 2 [PMake 0; PReset 0; PMake 0]) with
  | Ok m => stack m = [] /\ fins m = 2 /\ given m = [(0, [None]); (1, [Some 0; None]); (0, [None])] /\ m_free (pl m) = [1] /\ deleted (pl m) = []
  | _ => False
  end.
Proof. vm_compute. auto 10. Qed.
