(** vector_set when the comparator, a constructor or an allocation throws (C84). *)
From Coq Require Import ZifyBool ZifyNat.
From Verif Require Import Common VSetModel VSetProg VSetSpec VSetTree VSetRotate VSetList VSetLookup VSetOps VSetProofs VSetProps VSetThrowModel.

(** ** Specification *)
Section Spec.
Context {T K : Type} (lt : T -> T -> bool) (ltKT : K -> T -> bool) (ltTK : T -> K -> bool).
(** What the sets may be after an exception in [o], and how many blocks may be lost: a failed
    insertion, erasure or lookup changes nothing; a failed copy does not exist; a failed
    assignment leaves a prefix of the right operand. *)
Definition failed (o : vop T K) (se se' : @senv T) (lost : nat) : Prop :=
  match o with
  | VInsert i _ | VEmplace i _ => exists n l n', se i = Some (n, l) /\ se' = upd se i (Some (n', l)) /\ n <= n' /\ lost <= 1
  | VEraseKey _ _ | VContains _ _ | VFind _ _ | VFind2 _ _ | VLower _ _ | VUpper _ _ | VIndexOfKey _ _ | VEq _ _ => se' = se /\ lost = 0
  | VCopy i j => exists n l p q, se j = Some (n, l) /\ elems l = p ++ q /\ q <> [] /\ se' = se /\ length p <= lost <= S (length p)
  | VAssign i j => exists n l m k p q n', se i = Some (n, l) /\ se j = Some (m, k) /\ elems k = p ++ q /\ q <> [] /\
                     se' = upd se i (Some (n', combine (seq n (length p)) p)) /\ n + length p <= n' /\ lost <= 1
  | _ => False
  end.
(** The program keeps to the preconditions, whatever throws. *)
Fixpoint proper (se : @senv T) (os : list (vop T K)) : Prop :=
  match os with
  | [] => True
  | o :: os => supported o = true /\ (exists se' v, sstep lt ltKT ltTK se o = Some (se', v) /\ proper se' os) /\
               (forall se' n, failed o se se' n -> proper se' os)
  end.
(** The observations that are allowed, with the final sets and the number of lost blocks. *)
Inductive allowed : @senv T -> list (vop T K) -> list (option (vobs T)) -> @senv T -> nat -> Prop :=
| al_nil se : allowed se [] [] se 0
| al_ok se o se1 v os vs se2 n : sstep lt ltKT ltTK se o = Some (se1, v) -> allowed se1 os vs se2 n -> allowed se (o :: os) (Some v :: vs) se2 n
| al_exn se o se1 k os vs se2 n : failed o se se1 k -> allowed se1 os vs se2 n -> allowed se (o :: os) (None :: vs) se2 (k + n).
End Spec.

(** ** Calls that only read *)
Section Reads.
Context {T : Type}.
Fixpoint ticks (d : nat) (o : list bool) : bool * list bool :=
  match d with
  | 0 => (false, o)
  | S d => match o with
           | [] => (false, [])
           | true :: o => (true, o)
           | false :: o => ticks d o
           end
  end.
Lemma ticks_nil d : ticks d [] = (false, []).
Proof. now destruct d. Qed.
Lemma ticks_add d1 d2 : forall o, ticks (d1 + d2) o = let (b, o1) := ticks d1 o in if b then (true, o1) else ticks d2 o1.
Proof.
  induction d1 as [|d1 IH]; intros o; cbn [Nat.add ticks]; [reflexivity|]. destruct o as [|[|] o]; [|reflexivity|apply IH]. now rewrite ticks_nil.
Qed.
Lemma ticks_false d o : ticks d (repeat false d ++ o) = (false, o).
Proof. induction d; cbn; auto. Qed.

Definition sim {A} (mt : @TM T A) (m : @M T A) : Prop := forall s,
  match m s with
  | Ok (s1, x) => s1 = s /\ exists d, forall L o, mt (W s L o) = let (b, o1) := ticks d o in if b then TExn (W s L o1) None else TOk (W s L o1) x
  | Throw e => exists d, forall L o, mt (W s L o) = let (b, o1) := ticks d o in if b then TExn (W s L o1) None else TExn (W s L o1) (Some e)
  | UB => True
  end.
Definition ro {A} (m : @M T A) : Prop := forall s s1 x, m s = Ok (s1, x) -> s1 = s.
Lemma sim_lift {A} (m : @M T A) : ro m -> sim (lift m) m.
Proof.
  intros R s. destruct (m s) as [[s1 x]|e|] eqn:E; auto.
  - pose proof (R _ _ _ E) as ->. split; auto. exists 0. intros L o. cbn. unfold lift. cbn. now rewrite E.
  - exists 0. intros L o. cbn. unfold lift. cbn. now rewrite E.
Qed.
Lemma sim_ret {A} (x : A) : sim (tret x) (ret x).
Proof. intros s. cbn. split; auto. now exists 0. Qed.
Lemma sim_bind {A B} mt (m : @M T A) (kt : A -> @TM T B) k : sim mt m -> (forall x, sim (kt x) (k x)) -> sim (tbind mt kt) (bind m k).
Proof.
  intros S1 S2 s. unfold bind. specialize (S1 s). destruct (m s) as [[s1 x]|e|]; auto.
  - destruct S1 as [-> [d1 E1]]. specialize (S2 x s). destruct (k x s) as [[s2 y]|e|]; auto.
    + destruct S2 as [-> [d2 E2]]. split; auto. exists (d1 + d2). intros L o. unfold tbind. rewrite E1, ticks_add.
      destruct (ticks d1 o) as [[|] o1]; auto.
    + destruct S2 as [d2 E2]. exists (d1 + d2). intros L o. unfold tbind. rewrite E1, ticks_add. destruct (ticks d1 o) as [[|] o1]; auto.
  - destruct S1 as [d1 E1]. exists d1. intros L o. unfold tbind. rewrite E1. destruct (ticks d1 o) as [[|] o1]; auto.
Qed.
Lemma sim_cmp {B} f v (kt : bool -> @TM T B) (m : @M T B) : sim (kt (f v)) m -> sim (tbind (cmp f v) kt) m.
Proof.
  intros H s. specialize (H s).
  assert (E : forall L o, tbind (cmp f v) kt (W s L o) = match o with [] => kt (f v) (W s L []) | b :: o => if b then TExn (W s L o) None else kt (f v) (W s L o) end).
  { intros L o. unfold tbind, cmp, tbind, may_throw. cbn. destruct o as [|[|] o]; reflexivity. }
  destruct (m s) as [[s1 x]|e|]; auto.
  - destruct H as [-> [d H]]. split; auto. exists (S d). intros L o. rewrite E. destruct o as [|[|] o]; cbn [ticks]; auto. rewrite H, ticks_nil. reflexivity.
  - destruct H as [d H]. exists (S d). intros L o. rewrite E. destruct o as [|[|] o]; cbn [ticks]; auto. rewrite H, ticks_nil. reflexivity.
Qed.
Lemma ro_ret {A} (x : A) : ro (ret x).
Proof. intros s s1 y H. now injection H. Qed.
Lemma ro_bind {A B} (m : @M T A) (k : A -> @M T B) : ro m -> (forall x, ro (k x)) -> ro (bind m k).
Proof. intros R1 R2 s s1 y H. unfold bind in H. destruct (m s) as [[s2 x]|e|] eqn:E; try discriminate. pose proof (R1 _ _ _ E) as ->. eapply R2; eauto. Qed.
Lemma ro_rd {A} (f : st T -> nat -> A) p : ro (rd f p).
Proof. intros s s1 x H. unfold rd in H. destruct p; [|discriminate]. destruct (alive s n); [|discriminate]. now injection H. Qed.
Lemma ro_rd_val p : ro (@rd_val T p).
Proof. intros s s1 x H. unfold rd_val in H. destruct p; [|discriminate]. destruct (val s n); [|discriminate]. now injection H. Qed.
Lemma ro_fail {A} : ro (@fail T A).
Proof. intros s s1 x H. discriminate. Qed.
Lemma ro_root : ro (@get_root T).
Proof. intros s s1 x H. now injection H. Qed.
Lemma ro_left_count p : ro (@left_count T p).
Proof. apply ro_bind; [apply ro_rd|]. intros l. destruct (is_null l); [apply ro_ret|]. apply ro_bind; [apply ro_rd|intros; apply ro_ret]. Qed.
Lemma ro_it_of_link k : ro (@it_of_link T k).
Proof. unfold it_of_link. destruct k as [[|]|]; auto using ro_ret, ro_fail. Qed.
Lemma ro_rd_link f k : ro (@rd_link T f k).
Proof. intros s s1 x H. unfold rd_link in H. destruct k as [k|]; [|discriminate]. destruct (link_ok s k); [|discriminate]. now injection H. Qed.
Lemma ro_it_next i : ro (@it_next T i).
Proof. apply ro_bind; [apply ro_rd_link|intros; apply ro_it_of_link]. Qed.
Lemma ro_size : ro (@size T).
Proof. apply ro_bind; [apply ro_root|]. intros r. destruct (is_null r); [apply ro_ret|]. apply ro_bind; [apply ro_rd|intros; apply ro_ret]. Qed.
Hint Resolve ro_ret ro_rd ro_rd_val ro_fail ro_root ro_left_count ro_it_next ro_size sim_ret sim_lift : ro.
Lemma find_loop_sim {B} ltk gtk (accl accr : option nat -> B -> @M T B) : (forall x b, ro (accl x b)) -> (forall x b, ro (accr x b)) ->
  forall f x b, sim (find_loop_t f ltk gtk accl accr x b) (find_loop f ltk gtk accl accr x b).
Proof.
  intros RL RR. induction f as [|f IH]; intros x b; cbn [find_loop_t find_loop]; auto with ro.
  destruct (is_null x); auto with ro. apply sim_bind; auto with ro. intros v. apply sim_cmp. destruct (ltk v).
  - apply sim_bind; auto with ro. intros b1. apply sim_bind; auto with ro.
  - apply sim_cmp. destruct (gtk v); auto with ro. apply sim_bind; auto with ro. intros b1. apply sim_bind; auto with ro.
Qed.
Lemma fuelled_sim {A} (ft : nat -> @TM T A) f : (forall n, sim (ft n) (f n)) -> sim (fuelled_t ft) (fuelled f).
Proof. intros H s. exact (H _ s). Qed.
Lemma find_acc_sim {B} ltk gtk (accl accr : option nat -> B -> @M T B) b : (forall x b, ro (accl x b)) -> (forall x b, ro (accr x b)) ->
  sim (find_node_acc_t ltk gtk accl accr b) (find_node_acc ltk gtk accl accr b).
Proof. intros RL RR. apply sim_bind; auto with ro. intros r. apply fuelled_sim. intros n. now apply find_loop_sim. Qed.
Lemma find_node_sim ltk gtk : sim (find_node_t ltk gtk) (@find_node T ltk gtk).
Proof. apply sim_bind; auto with ro. apply find_acc_sim; auto with ro. Qed.
Lemma find_parent_sim ltk gtk : sim (find_node_parent_t ltk gtk) (@find_node_parent T ltk gtk).
Proof. apply find_acc_sim; auto with ro. Qed.
Lemma find_index_sim ltk gtk : sim (find_index_t ltk gtk) (@find_index T ltk gtk).
Proof.
  apply sim_bind.
  - apply find_acc_sim; auto with ro. intros x b. apply ro_bind; auto with ro.
  - intros [x b]. cbn [fst snd]. destruct x; auto with ro. apply sim_bind; auto with ro.
Qed.
Lemma bound_sim ltk gtk : sim (find_bound_t ltk gtk) (@find_bound T ltk gtk).
Proof.
  apply sim_bind; auto with ro. intros r. apply fuelled_sim. intros n. generalize (@None nat). revert r.
  induction n as [|f IH]; intros x g; cbn [bound_loop_t bound_loop]; auto with ro.
  destruct (is_null x); auto with ro. apply sim_bind; auto with ro. intros v. apply sim_cmp. destruct (ltk v).
  - apply sim_bind; auto with ro.
  - apply sim_cmp. destruct (gtk v); auto with ro. apply sim_bind; auto with ro.
Qed.
Lemma lower_sim ltk gtk : sim (lower_bound_t ltk gtk) (@lower_bound T ltk gtk).
Proof. apply sim_bind; auto using bound_sim with ro. Qed.
Lemma upper_sim ltk gtk : sim (upper_bound_t ltk gtk) (@upper_bound T ltk gtk).
Proof. apply sim_bind; auto using bound_sim with ro. intros [x b]. cbn [fst snd]. destruct b; auto with ro. Qed.
Lemma index_of_key_sim ltk gtk : sim (index_of_key_t ltk gtk) (@index_of_key T ltk gtk).
Proof. apply sim_bind; auto using find_index_sim with ro. intros [[a i]|]; auto with ro. apply sim_lift. intros s s1 x H. discriminate. Qed.
Lemma equal_sim (lt : T -> T -> bool) n vs : sim (equal_t lt n vs) (equal lt n vs).
Proof.
  apply sim_bind; auto with ro. intros m. destruct (m =? n); auto with ro. apply sim_bind; auto with ro.
  induction vs as [|v vs IH]; intros i; cbn [eq_loop_t eq_loop]; auto with ro. apply sim_bind; [apply sim_lift, ro_rd_val|]. intros w.
  apply sim_cmp. destruct (lt v w); cbn [orb]; auto with ro. apply sim_cmp. destruct (lt w v); auto with ro. apply sim_bind; auto with ro.
Qed.
End Reads.

(** ** Calls that change the set *)
Section Ops.
Context {T : Type} (lt : T -> T -> bool) (SW : strict_weak lt).
Notation Rel := (Rel lt). Notation RelT := (RelT lt).
Definition bump (s : st T) : st T := mk (root s) (par s) (lft s) (rgt s) (col s) (cnt s) (val s) (nxt s) (prv s) (S (fresh s)).
Lemma bump_rel s n l : Rel s (n, l) -> Rel (bump s) (S n, l).
Proof.
  intros (t & R). exists t. destruct R as [[F B K] I H V S]. cbn [fst snd] in *. split; auto; cbn [fst snd]; try (cbn; congruence).
  split; auto. destruct F as [A1 A2 A3 A4 A5 A6]. split; auto.
  all: try (intros b Hb; specialize (A6 b Hb); cbn; lia).
  - eapply tst_frame; [|exact A1]. intros b Hb. unfold eq_at, alive. cbn. auto.
  - eapply tct_frame; [|exact A4]. reflexivity.
  - eapply chain_frame; [| |exact K]; reflexivity.
Qed.
Lemma create_drop s t ss v : RelT s t ss -> exists s1, create_node v s = Ok (s1, fst ss) /\ val s1 (fst ss) = Some v /\ vrel lt s1 t (snd ss) /\
  RelT (set_val (fst ss) None s1) t (S (fst ss), snd ss) /\ destroy_node (Some (fst ss)) s1 = Ok (set_val (fst ss) None s1, tt).
Proof.
  intros R. destruct ss as [h l]. cbn [fst snd]. pose proof (r_fresh _ _ _ _ R) as Hf. simpl in Hf.
  destruct (create_ok s t v (r_core _ _ _ _ R)) as (s1 & E1 & Co1 & V1 & F1 & L1 & R1 & N1 & X1). rewrite Hf in *.
  assert (Hv1 : forall a w, a <> h -> (val s1 a = Some w <-> In (a, w) l)).
  { intros a w Ha. rewrite V1, upd_neq by auto. apply (r_val _ _ _ _ R). }
  assert (Hni : ~ In h (map fst l)) by apply (Rel_notin _ _ _ _ R).
  assert (Hh1 : val s1 h = Some v) by (rewrite V1; apply upd_eq).
  assert (Al : alive s1 h = true) by (unfold alive; now rewrite Hh1).
  exists s1. split; auto. split; auto. split; [|split].
  - split; try apply R; try apply Co1. intros a w H. apply Hv1; auto. intros ->. apply Hni. apply in_map_iff. exists (h, w). auto.
  - destruct (destroy_new_ok s1 t h Co1) as (s2 & E2 & Co2 & V2 & F2); auto.
    { rewrite (r_ino _ _ _ _ R). exact Hni. }
    unfold destroy_node, link_safe_exclude in E2. rewrite bind_assoc in E2. rewrite bind_rd_link in E2 by exact Al.
    rewrite X1, bind_ret, Al in E2. injection E2 as <-.
    split; auto; cbn [fst snd]; try apply R.
    + intros b x. rewrite V2. destruct (Nat.eq_dec b h) as [->|Hb].
      * rewrite upd_eq. split; [discriminate|]. intros Hin. exfalso. apply Hni. apply in_map_iff. exists (h, x). auto.
      * rewrite upd_neq by auto. now apply Hv1.
  - unfold destroy_node, link_safe_exclude. rewrite bind_assoc. rewrite bind_rd_link by exact Al. now rewrite X1, bind_ret, Al.
Qed.
Lemma ticks1 o : ticks 1 o = match o with [] => (false, []) | b :: o => (b, o) end.
Proof. destruct o as [|[|] o]; reflexivity. Qed.
Lemma may_throw_eq (s : st T) L o : may_throw (W s L o) = let (b, o1) := ticks 1 o in if b then TExn (W s L o1) None else TOk (W s L o1) tt.
Proof. rewrite ticks1. unfold may_throw. cbn. destruct o as [|[|] o]; reflexivity. Qed.
Lemma create_node_t_eq (s : st T) v L o s1 a : create_node v s = Ok (s1, a) -> create_node_t v (W s L o) =
  let (b, o1) := ticks 1 o in if b then TExn (W s L o1) None else
  let (b, o2) := ticks 1 o1 in if b then TExn (W (bump s) (S L) o2) None else TOk (W s1 L o2) a.
Proof.
  intros E. unfold create_node_t, tbind, on_exn, lift. rewrite may_throw_eq. destruct (ticks 1 o) as [[|] o1]; auto.
  rewrite may_throw_eq. destruct (ticks 1 o1) as [[|] o2]; auto. cbn [wset leaks answers]. now rewrite E.
Qed.
(** The last stage: InsertNode of a node that nobody else owns *)
Lemma insert_node_t_eq (s s2 : st T) v a p L o : val s a = Some v -> insert_node lt (Some a) p s = Ok (s2, tt) ->
  on_exn (insert_node_t lt (Some a) p) (abandon a) (W s L o) =
    let (b, o1) := ticks match p with None => 0 | Some _ => 1 end o in if b then TExn (W (set_val a None s) (S L) o1) None else TOk (W s2 L o1) tt.
Proof.
  intros V E. unfold on_exn, insert_node_t, tbind, abandon, lift, tret. destruct p as [b|]; cbn [is_null].
  - cbn [wset leaks answers]. unfold rd_val at 1. rewrite V. cbn [wset leaks answers].
    assert (Vb : exists w, val s b = Some w).
    { unfold insert_node, bind in E. destruct (wr set_par (Some a) (Some b) s) as [[s3 []]|e|] eqn:E3; try discriminate. cbn [is_null] in E.
      unfold wr in E3. destruct (alive s a); [|discriminate]. injection E3 as <-. unfold rd_val in E. cbn [val set_par] in E. rewrite V in E.
      destruct (val s b) as [w|] eqn:Vb; [eauto|]. change (val (set_par a (Some b) s) b) with (val s b) in E. rewrite Vb in E. discriminate. }
    destruct Vb as [w Vb]. unfold rd_val. rewrite Vb. cbn [wset leaks answers]. rewrite may_throw_eq. destruct (ticks 1 o) as [[|] o1]; cbn [wset leaks answers]; auto. now rewrite E.
  - cbn [ticks wset leaks answers]. now rewrite E.
Qed.
Lemma up_nil t C l : plug E C = t -> ino t = map fst (l : list (nat * T)) -> match up C with None => 0 | Some _ => 1 end = match l with [] => 0 | _ => 1 end.
Proof.
  intros P I. destruct C as [|[d c a r] C].
  - cbn in *. subst t. destruct l; [reflexivity|discriminate].
  - cbn [up]. destruct l as [|e l]; [|reflexivity]. exfalso. cbn in I. assert (N : forall C t, t <> E -> ino (plug t C) <> []).
    { clear. induction C as [|[d c a r] C IH]; intros t H; cbn; [destruct t; [easy|cbn; now destruct (ino t1)]|]. apply IH. now destruct d. }
    subst t. cbn in I. eapply N; [|exact I]. now destruct d.
Qed.
Lemma insert_t_eq s ss v : Rel s ss -> let (ss', r) := sinsert lt false v ss in exists s', insert lt v s = Ok (s', r) /\ Rel s' ss' /\
  ((snd r = false /\ s' = s /\ exists d, forall L o, insert_t lt v (W s L o) = let (b, o1) := ticks d o in if b then TExn (W s L o1) None else TOk (W s L o1) r) \/
   (snd r = true /\ exists d s1, Rel s1 (S (fst ss), snd ss) /\ forall L o, insert_t lt v (W s L o) =
      let (b, o1) := ticks (d + 1) o in if b then TExn (W s L o1) None else
      let (b, o2) := ticks 1 o1 in if b then TExn (W (bump s) (S L) o2) None else
      let (b, o3) := ticks match snd ss with [] => 0 | _ => 1 end o2 in if b then TExn (W s1 (S L) o3) None else TOk (W s' L o3) r)).
Proof.
  intros R. pose proof (insert_rel lt SW s ss v R) as HI. destruct (sinsert lt false v ss) as [ss' r]. destruct HI as (s' & E & R'). exists s'. split; auto. split; auto.
  destruct R as (t & R). pose proof (find_parent_sim (fun x => lt v x) (fun x => lt x v) s) as FS.
  destruct (find_parent_val lt SW s t (snd ss) v (RelT_vrel _ _ _ _ R)) as [(C & Ef & Es)|(a & w & p & Ef & El)]; rewrite Ef in FS; destruct FS as [_ [d FS]].
  - right. destruct (create_drop s t ss v R) as (s1 & E1 & V1 & VR1 & R1 & _).
    unfold insert in E. rewrite (bind_ok _ _ _ _ _ Ef) in E. cbn [fst snd] in E. rewrite (bind_ok _ _ _ _ _ E1) in E. unfold bind in E.
    destruct (insert_node lt (Some (fst ss)) (up C) s1) as [[s2 []]|e|] eqn:E2; try discriminate. cbn [ret] in E. injection E as <- <-.
    split; auto. exists d, (set_val (fst ss) None s1). split; [now exists t|]. intros L o. unfold insert_t, tbind. rewrite FS. rewrite ticks_add.
    destruct (ticks d o) as [[|] o1]; auto. cbn [fst snd]. rewrite (create_node_t_eq s v L o1 s1 (fst ss) E1).
    destruct (ticks 1 o1) as [[|] o2]; auto. destruct (ticks 1 o2) as [[|] o3]; auto. rewrite (insert_node_t_eq s1 s2 v (fst ss) (up C) L o3 V1 E2).
    rewrite (up_nil t C (snd ss)).
    + destruct (ticks _ o3) as [[|] o4]; reflexivity.
    + pose proof (srch_plug (dk s (fun x => lt v x) (fun x => lt x v)) t []) as P. rewrite Es in P. exact P.
    + apply R.
  - left. unfold insert in E. rewrite (bind_ok _ _ _ _ _ Ef) in E. cbn in E. injection E as <- <-. split; auto. split; auto. exists d. intros L o.
    unfold insert_t, tbind. rewrite FS. destruct (ticks d o) as [[|] o1]; reflexivity.
Qed.
Lemma emplace_t_eq s ss v : Rel s ss -> let (ss', r) := sinsert lt true v ss in exists s', emplace lt v s = Ok (s', r) /\ Rel s' ss' /\
  exists d s1, Rel s1 (S (fst ss), snd ss) /\ forall L o, emplace_t lt v (W s L o) =
      let (b, o1) := ticks 1 o in if b then TExn (W s L o1) None else
      let (b, o2) := ticks 1 o1 in if b then TExn (W (bump s) (S L) o2) None else
      let (b, o3) := ticks d o2 in if b then TExn (W s1 L o3) None else
      if snd r then let (b, o4) := ticks match snd ss with [] => 0 | _ => 1 end o3 in if b then TExn (W s1 (S L) o4) None else TOk (W s' L o4) r
      else TOk (W s' L o3) r.
Proof.
  intros R. pose proof (emplace_rel lt SW s ss v R) as HI. destruct (sinsert lt true v ss) as [ss' r]. destruct HI as (s' & E & R'). exists s'. split; auto. split; auto.
  destruct R as (t & R). destruct (create_drop s t ss v R) as (s1 & E1 & V1 & VR1 & R1 & D1).
  pose proof (find_parent_sim (fun x => lt v x) (fun x => lt x v) s1) as FS.
  unfold emplace in E. rewrite (bind_ok _ _ _ _ _ E1) in E. rewrite (rd_val_run s1 (fst ss) v) in E by auto.
  destruct (find_parent_val lt SW s1 t (snd ss) v VR1) as [(C & Ef & Es)|(a & w & p & Ef & El)]; rewrite Ef in FS; destruct FS as [_ [d FS]];
    rewrite (bind_ok _ _ _ _ _ Ef) in E; cbn [fst snd] in E; exists d, (set_val (fst ss) None s1); (split; [now exists t|]); intros L o; unfold emplace_t; unfold tbind at 1;
    rewrite (create_node_t_eq s v L o s1 (fst ss) E1); destruct (ticks 1 o) as [[|] o1]; auto; destruct (ticks 1 o1) as [[|] o2]; auto;
    unfold tbind at 1, lift at 1; cbn [wset leaks answers]; unfold rd_val at 1; rewrite V1; cbn [wset leaks answers]; unfold tbind at 1, on_exn at 1; rewrite FS;
    destruct (ticks d o2) as [[|] o3]; try (unfold lift; cbn [wset leaks answers]; rewrite D1; reflexivity); cbn [fst snd].
  - unfold bind in E. destruct (insert_node lt (Some (fst ss)) (up C) s1) as [[s2 []]|e|] eqn:E2; try discriminate. cbn [ret] in E. injection E as <- <-.
    unfold tbind. rewrite (insert_node_t_eq s1 s2 v (fst ss) (up C) L o3 V1 E2). cbn [snd]. rewrite (up_nil t C (snd ss)).
    + destruct (ticks _ o3) as [[|] o4]; reflexivity.
    + pose proof (srch_plug (dk s1 (fun x => lt v x) (fun x => lt x v)) t []) as P. rewrite Es in P. exact P.
    + apply R.
  - unfold bind in E. rewrite D1 in E. cbn [ret] in E. injection E as <- <-. unfold tbind, lift. cbn [wset leaks answers]. rewrite D1. reflexivity.
Qed.
(** The outcomes of an insertion *)
Definition outcomes {A} (mt : @TM T A) s s' (x : A) (ss : @sset T) : Prop :=
  (exists d, forall L o, mt (W s L (repeat false d ++ o)) = TOk (W s' L o) x) /\
  (forall L o, exists o1, mt (W s L o) = TOk (W s' L o1) x \/
     exists s1 L1 n, mt (W s L o) = TExn (W s1 L1 o1) None /\ Rel s1 (n, snd ss) /\ fst ss <= n /\ L <= L1 <= S L).
Lemma insert_t_out s ss v : Rel s ss -> let (ss', r) := sinsert lt false v ss in exists s', insert lt v s = Ok (s', r) /\ Rel s' ss' /\
  outcomes (insert_t lt v) s s' r ss /\
  (snd r = true -> exists d s1, Rel s1 (S (fst ss), snd ss) /\ forall L o, insert_t lt v (W s L (repeat false d ++ true :: o)) = TExn (W s1 (S L) o) None).
Proof.
  intros R. pose proof (insert_t_eq s ss v R) as H. destruct (sinsert lt false v ss) as [ss' r]. destruct H as (s' & E & R' & H). exists s'. split; auto. split; auto.
  destruct ss as [n l]. cbn [fst snd] in *.
  destruct H as [(Hr & -> & d & H)|(Hr & d & s1 & R1 & H)].
  - split; [|congruence]. split.
    + exists d. intros L o. now rewrite H, ticks_false.
    + intros L o. rewrite H. destruct (ticks d o) as [[|] o1]; exists o1; [right|now left]. exists s, L, n. cbn [fst snd]. repeat split; auto; lia.
  - pose proof (bump_rel s n l R) as RB. split; [split|].
    + exists (d + 1 + (1 + match l with [] => 0 | _ => 1 end)). intros L o. rewrite H. rewrite (repeat_app _ (d + 1) (1 + _)), (repeat_app _ 1 match l with [] => 0 | _ => 1 end), <- !app_assoc. rewrite !ticks_false. reflexivity.
    + intros L o. rewrite H. destruct (ticks (d + 1) o) as [[|] o1]; [exists o1; right; exists s, L, n; cbn [fst snd]; repeat split; auto; lia|].
      destruct (ticks 1 o1) as [[|] o2]; [exists o2; right; exists (bump s), (S L), (S n); cbn [fst snd]; repeat split; auto; lia|].
      destruct (ticks _ o2) as [[|] o3]; exists o3; [right|now left]. exists s1, (S L), (S n). cbn [fst snd]. repeat split; auto; lia.
    + intros _. exists (d + 1), (bump s). split; auto. intros L o. rewrite H, ticks_false. reflexivity.
Qed.
Lemma emplace_t_out s ss v : Rel s ss -> let (ss', r) := sinsert lt true v ss in exists s', emplace lt v s = Ok (s', r) /\ Rel s' ss' /\
  outcomes (emplace_t lt v) s s' r ss.
Proof.
  intros R. pose proof (emplace_t_eq s ss v R) as H. destruct (sinsert lt true v ss) as [ss' r]. destruct H as (s' & E & R' & d & s1 & R1 & H). exists s'. split; auto. split; auto.
  destruct ss as [n l]. cbn [fst snd] in *. pose proof (bump_rel s n l R) as RB. split.
  - exists (1 + (1 + (d + if snd r then match l with [] => 0 | _ => 1 end else 0))). intros L o. rewrite H. rewrite (repeat_app _ 1 (1 + _)), (repeat_app _ 1 (d + _)), (repeat_app _ d), <- !app_assoc. rewrite !ticks_false.
    destruct (snd r); [now rewrite ticks_false|reflexivity].
  - intros L o. rewrite H. destruct (ticks 1 o) as [[|] o1]; [exists o1; right; exists s, L, n; cbn [fst snd]; repeat split; auto; lia|].
    destruct (ticks 1 o1) as [[|] o2]; [exists o2; right; exists (bump s), (S L), (S n); cbn [fst snd]; repeat split; auto; lia|].
    destruct (ticks d o2) as [[|] o3]; [exists o3; right; exists s1, L, (S n); cbn [fst snd]; repeat split; auto; lia|].
    destruct (snd r); [|exists o3; now left].
    destruct (ticks _ o3) as [[|] o4]; exists o4; [right|now left]. exists s1, (S L), (S n). cbn [fst snd]. repeat split; auto; lia.
Qed.
Lemma insert_last s h (l : list (nat * T)) v vs : Rel s (h, l) -> sorted lt (elems l ++ v :: vs) -> sinsert lt false v (h, l) = ((S h, l ++ [(h, v)]), (Some h, true)).
Proof.
  intros R Hs. pose proof Hs as Hm. apply (sorted_mid lt) in Hm as [H1 H2]. unfold sinsert. cbn [fst snd].
  assert (Hl : lookup (eqvT lt v) l = None).
  { apply find_none. apply Forall_forall. intros [b w] Hin. simpl. unfold eqvT. rewrite Forall_forall in H1.
    rewrite (H1 w); [now rewrite andb_false_r|]. apply in_map_iff. exists (b, w). auto. }
  rewrite Hl. assert (Hsn : sins lt h v l = l ++ [(h, v)]); [|now rewrite Hsn].
  assert (Hall : Forall (fun e : nat * T => lt (snd e) v = true) l).
  { apply Forall_forall. intros [b w] Hin. simpl. rewrite Forall_forall in H1. apply H1. apply in_map_iff. exists (b, w). auto. }
  unfold sins. rewrite filter_all by auto. rewrite filter_none; auto. eapply Forall_impl; [|exact Hall]. intros e ->. reflexivity.
Qed.
Lemma insert_all_t_out vs : forall s h l, Rel s (h, l) -> sorted lt (elems l ++ vs) ->
  exists s', Rel s' (h + length vs, l ++ combine (seq h (length vs)) vs) /\ insert_all lt vs s = Ok (s', tt) /\
  (exists d, forall L o, insert_all_t lt vs (W s L (repeat false d ++ o)) = TOk (W s' L o) tt) /\
  (forall L o, exists o1, insert_all_t lt vs (W s L o) = TOk (W s' L o1) tt \/
     exists p q s1 L1 n, vs = p ++ q /\ q <> [] /\ insert_all_t lt vs (W s L o) = TExn (W s1 L1 o1) None /\
       Rel s1 (n, l ++ combine (seq h (length p)) p) /\ h + length p <= n /\ L <= L1 <= S L) /\
  (forall p q, vs = p ++ q -> q <> [] -> exists d s1, Rel s1 (S (h + length p), l ++ combine (seq h (length p)) p) /\
     forall L o, insert_all_t lt vs (W s L (repeat false d ++ true :: o)) = TExn (W s1 (S L) o) None).
Proof.
  induction vs as [|v vs IH]; intros s h l R Hs.
  - exists s. cbn [length combine seq insert_all insert_all_t]. rewrite app_nil_r, Nat.add_0_r. split; auto. split; auto. split; [now exists 0|]. split.
    + intros L o. exists o. now left.
    + intros p q E. destruct p, q; try discriminate. congruence.
  - pose proof (insert_t_out s (h, l) v R) as Hi. rewrite (insert_last s h l v vs R Hs) in Hi. destruct Hi as (s1 & E1 & R1 & ((d1 & D1) & O1) & K1).
    destruct (IH s1 (S h) (l ++ [(h, v)]) R1) as (s2 & R2 & E2 & (d2 & D2) & O2 & K2).
    { unfold elems in *. rewrite map_app, <- app_assoc. exact Hs. }
    assert (Heq : forall p : list T, (l ++ [(h, v)]) ++ combine (seq (S h) (length p)) p = l ++ combine (seq h (length (v :: p))) (v :: p)).
    { intros p. rewrite <- app_assoc. reflexivity. }
    exists s2. cbn [length]. replace (h + S (length vs)) with (S h + length vs) by lia. rewrite (Heq vs) in R2. split; [exact R2|].
    cbn [insert_all insert_all_t]. split; [rewrite (bind_ok _ _ _ _ _ E1); exact E2|]. split; [|split].
    + exists (d1 + d2). intros L o. rewrite repeat_app, <- app_assoc. unfold tbind. now rewrite D1.
    + intros L o. destruct (O1 L o) as (o1 & [H|(s3 & L1 & n & H & R3 & Hn & HL)]).
      * destruct (O2 L o1) as (o2 & [H2|(p & q & s3 & L1 & n & Ep & Hq & H2 & R3 & Hn & HL)]); exists o2.
        -- left. unfold tbind. now rewrite H.
        -- right. exists (v :: p), q, s3, L1, n. rewrite Heq in R3. cbn [app length] in *. rewrite Ep. repeat split; auto; try lia. unfold tbind. rewrite H, <- Ep. auto.
      * exists o1. right. exists [], (v :: vs), s3, L1, n. cbn [fst snd app length combine seq] in *. rewrite app_nil_r. repeat split; auto; try congruence; try lia. unfold tbind. now rewrite H.
    + intros p q Ep Hq. destruct p as [|v' p]; cbn [app] in Ep.
      * subst q. destruct (K1 eq_refl) as (d & s3 & R3 & H). exists d, s3. cbn [length combine seq fst snd] in *. rewrite app_nil_r, Nat.add_0_r. split; auto.
        intros L o. unfold tbind. now rewrite H.
      * injection Ep as <- Ep. destruct (K2 p q Ep Hq) as (d & s3 & R3 & H). rewrite Heq in R3. exists (d1 + d), s3. cbn [length]. replace (h + S (length p)) with (S h + length p) by lia.
        split; auto. intros L o. rewrite repeat_app, <- app_assoc. unfold tbind. now rewrite D1, H.
Qed.
Lemma live_rel s ss : Rel s ss -> live s = length (snd ss).
Proof.
  intros (t & R). unfold live. rewrite <- (map_length fst (snd ss)). apply Permutation.Permutation_length. apply Permutation.NoDup_Permutation.
  - apply NoDup_filter, seq_NoDup.
  - eapply vrel_nodup, RelT_vrel; eauto.
  - intros a. rewrite filter_In, in_seq, in_map_iff. split.
    + intros [_ H]. apply alive_val in H as (v & H). apply (r_val _ _ _ _ R) in H. now exists (a, v).
    + intros ([b v] & <- & H). pose proof (Rel_lt _ _ _ _ _ _ R H). cbn [fst]. rewrite (r_fresh _ _ _ _ R). split; [lia|].
      unfold alive. apply (r_val _ _ _ _ R) in H. now rewrite H.
Qed.
End Ops.

Section Sim.
Context {T K : Type} (lt : T -> T -> bool) (ltKT : K -> T -> bool) (ltTK : T -> K -> bool) (SW : strict_weak lt) (KO : keys_ok lt ltKT ltTK).
Notation envrel := (envrel lt).
Notation tstep := (tstep lt ltKT ltTK). Notation trun := (trun lt ltKT ltTK).
Definition good (e : @venv T) se (o : vop T K) se' v : Prop :=
  (exists d e1, envrel e1 se' /\ forall L a, tstep (e, L, repeat false d ++ a) o = Ok ((e1, L, a), Some v)) /\
  (forall L a, exists e1 a1, (tstep (e, L, a) o = Ok ((e1, L, a1), Some v) /\ envrel e1 se') \/
     exists se1 k, tstep (e, L, a) o = Ok ((e1, L + k, a1), None) /\ failed o se se1 k /\ envrel e1 se1).
Lemma on_sim e se i (A : Type) (mt : @TM T A) m obs e' v : envrel e se -> sim mt m -> on e i m obs = Ok (e', v) ->
  exists e1, envrel e1 se /\ (exists d, forall L o, on_t (e, L, repeat false d ++ o) i mt obs = Ok ((e1, L, o), Some v)) /\
  (forall L o, exists o1, on_t (e, L, o) i mt obs = Ok ((e1, L, o1), Some v) \/ on_t (e, L, o) i mt obs = Ok ((e1, L, o1), None)).
Proof.
  intros R S H. unfold on in H. destruct (e i) as [s|] eqn:E; [|discriminate]. exists (upd e i (Some s)). split.
  { pose proof (R i) as Ri. rewrite E in Ri. destruct (se i) as [ss|] eqn:Si; [|contradiction]. eapply envrel_upd_l; eauto. }
  specialize (S s). unfold on_t. rewrite E. destruct (m s) as [[s1 x]|x|]; [| |discriminate].
  - injection H as <- <-. destruct S as [-> [d S]]. split.
    + exists d. intros L o. now rewrite S, ticks_false.
    + intros L o. rewrite S. destruct (ticks d o) as [[|] o1]; exists o1; auto.
  - injection H as <- <-. destruct S as [d S]. split.
    + exists d. intros L o. now rewrite S, ticks_false.
    + intros L o. rewrite S. destruct (ticks d o) as [[|] o1]; exists o1; auto.
Qed.
Lemma good_read e se o i (A : Type) (mt : @TM T A) m obs e' v : envrel e se -> sim mt m -> on e i m obs = Ok (e', v) ->
  (forall L a, tstep (e, L, a) o = on_t (e, L, a) i mt obs) -> failed o se se 0 -> good e se o se v.
Proof.
  intros R S H HT F. destruct (on_sim e se i A mt m obs e' v R S H) as (e1 & R1 & (d & D) & O). split.
  - exists d, e1. split; auto. intros L a. now rewrite HT, D.
  - intros L a. rewrite HT. destruct (O L a) as (a1 & [E|E]); exists e1, a1; [left; auto|right]. exists se, 0. rewrite Nat.add_0_r. auto.
Qed.
Lemma good_pure e se o se' v : (exists e1, vstep lt ltKT ltTK e o = Ok (e1, v) /\ envrel e1 se') ->
  (forall L a, tstep (e, L, a) o = let* (e1, v) := vstep lt ltKT ltTK e o in Ok ((e1, L, a), Some v)) -> good e se o se' v.
Proof.
  intros (e1 & E & R) H. rewrite E in H. cbn [rbind] in H. split.
  - exists 0, e1. split; auto.
  - intros L a. exists e1, a. left. rewrite H. auto.
Qed.
Ltac get_inv H := cbn [sstep] in H; repeat match type of H with
  | match ?x with _ => _ end = Some _ => destruct x eqn:?; try discriminate H end; injection H as <- <-.
Lemma good_on e se o i s ss (A : Type) (mt : @TM T A) s' x obs ss' : envrel e se -> e i = Some s -> outcomes lt mt s s' x ss -> Rel lt s' ss' ->
  (forall L a, tstep (e, L, a) o = on_t (e, L, a) i mt obs) -> (forall n k, fst ss <= n -> k <= 1 -> failed o se (upd se i (Some (n, snd ss))) k) ->
  good e se o (upd se i (Some ss')) (obs x).
Proof.
  intros R E ((d & D) & O) R' HT F. split.
  - exists d, (upd e i (Some s')). split; [now apply envrel_upd|]. intros L a. rewrite HT. unfold on_t. now rewrite E, D.
  - intros L a. rewrite HT. unfold on_t. rewrite E. destruct (O L a) as (a1 & [H|(s1 & L1 & n & H & R1 & Hn & HL)]); rewrite H.
    + exists (upd e i (Some s')), a1. left. split; auto. now apply envrel_upd.
    + exists (upd e i (Some s1)), a1. right. exists (upd se i (Some (n, snd ss))), (L1 - L). cbn [wset leaks answers]. split; [do 3 f_equal; f_equal; lia|].
      split; [apply F; lia|]. now apply envrel_upd.
Qed.
Lemma erase_stage ltk gtk (s s1 : st T) n : erase_key ltk gtk s = Ok (s1, n) -> exists d, forall L o, erase_key_t ltk gtk (W s L o) =
  let (b, o1) := ticks d o in if b then TExn (W s L o1) None else TOk (W s1 L o1) n.
Proof.
  intros E. unfold erase_key, bind in E. pose proof (find_node_sim ltk gtk s) as FS. destruct (find_node ltk gtk s) as [[s0 r]|x|]; try discriminate.
  destruct FS as [-> [d FS]]. exists d. intros L o. unfold erase_key_t, tbind. rewrite FS. destruct (ticks d o) as [[|] o1]; auto.
  destruct (is_null r); [cbn in *; injection E as <- <-; reflexivity|]. unfold lift. cbn [wset leaks answers].
  destruct (erase_it r s) as [[s2 []]|x|]; try discriminate. cbn [ret] in E. injection E as <- <-. reflexivity.
Qed.
Lemma to_list_rel s ss : Rel lt s ss -> to_list s = Ok (s, elems (snd ss)) /\ sorted lt (elems (snd ss)).
Proof.
  intros R. destruct (Rel_parts lt _ _ R) as (t & F & Hi & L & Al & Nd & Vl & Hlen & V). split; [|apply (v_sorted _ _ _ _ V)].
  eapply to_list_ok; eauto. rewrite map_length; auto.
Qed.
Theorem tstep_sim e se o se' v : envrel e se -> supported o = true -> sstep lt ltKT ltTK se o = Some (se', v) -> good e se o se' v.
Proof.
  intros R Su H. pose proof (vstep_sim lt ltKT ltTK SW KO e se o se' v R Su H) as (e' & E & R').
  assert (Getr : forall i ss, se i = Some ss -> exists s, e i = Some s /\ Rel lt s ss) by (intros; eapply envrel_some; eauto).
  destruct o; try (apply good_pure; [eauto|reflexivity]); cbn [vstep] in E.
  - (* copy *) cbn [sstep] in H. destruct (se i) as [?|] eqn:Ei; [discriminate|]. destruct (se j) as [ss|] eqn:Ej; [|discriminate]. injection H as <- <-.
    pose proof (envrel_none lt _ _ _ R Ei) as Ni. destruct (Getr _ _ Ej) as (s & Es & Rs). destruct (to_list_rel s ss Rs) as [El So].
    destruct (insert_all_t_out lt SW (elems (snd ss)) empty_st 0 [] (empty_rel lt)) as (s1 & R1 & _ & (d & D) & O & _); [exact So|]. cbn [app Nat.add] in R1.
    split.
    + exists d, (upd e i (Some s1)). split; [now apply envrel_upd|]. intros L a. cbn [VSetThrowModel.tstep]. rewrite Ni, Es, El. cbn [rbind]. rewrite D. reflexivity.
    + intros L a. cbn [VSetThrowModel.tstep]. rewrite Ni, Es, El. cbn [rbind].
      destruct (O L a) as (a1 & [X|(p & q & s2 & L1 & n & Ep & Hq & X & R2 & Hn & HL)]); rewrite X.
      * exists (upd e i (Some s1)), a1. left. split; auto. now apply envrel_upd.
      * exists e, a1. right. exists se, (L1 - L + length p). cbn [wset leaks answers].
        assert (Hl : live s2 = length p) by (rewrite (live_rel lt s2 _ R2); cbn [app snd]; rewrite combine_length, seq_length; lia).
        rewrite Hl. split; [do 3 f_equal; f_equal; lia|]. split; [|auto]. cbn [failed]. destruct ss as [m l]. exists m, l, p, q. cbn [snd] in *. repeat split; auto; lia.
  - (* assign *) cbn [sstep supported] in H, Su. destruct (Nat.eqb_spec i j) as [|Hij]; [discriminate|]. destruct (se i) as [[n l]|] eqn:Ei; [|discriminate].
    destruct (se j) as [[m k]|] eqn:Ej; [|discriminate]. injection H as <- <-.
    destruct (Getr _ _ Ei) as (si & Esi & Ri). destruct (Getr _ _ Ej) as (s & Es & Rs). destruct (to_list_rel s _ Rs) as [El So]. cbn [fst snd] in *.
    destruct (clear_rel lt _ _ Ri) as (s0 & E0 & R0 & _). cbn [fst] in R0.
    destruct (insert_all_t_out lt SW (elems k) s0 n [] R0) as (s1 & R1 & _ & (d & D) & O & _); [exact So|]. cbn [app] in R1, O.
    assert (HT : forall L a, tstep (e, L, a) (VAssign i j) = on_t (upd e i (Some s0), L, a) i (insert_all_t lt (elems k)) (fun _ => BUnit)).
    { intros L a. cbn [VSetThrowModel.tstep]. rewrite Esi, E0. cbn [rbind]. rewrite upd_neq, Es, El by auto. reflexivity. }
    split.
    + exists d, (upd (upd e i (Some s0)) i (Some s1)). split.
      { intros x. unfold upd. destruct (Nat.eqb_spec x i); [subst; exact R1|apply R]. }
      intros L a. rewrite HT. unfold on_t. rewrite upd_eq, D. reflexivity.
    + intros L a. rewrite HT. unfold on_t. rewrite upd_eq. destruct (O L a) as (a1 & [X|(p & q & s2 & L1 & n' & Ep & Hq & X & R2 & Hn & HL)]); rewrite X.
      * exists (upd (upd e i (Some s0)) i (Some s1)), a1. left. split; auto. intros x. unfold upd. destruct (Nat.eqb_spec x i); [subst; exact R1|apply R].
      * exists (upd (upd e i (Some s0)) i (Some s2)), a1. right. exists (upd se i (Some (n', combine (seq n (length p)) p))), (L1 - L). cbn [wset leaks answers].
        split; [do 3 f_equal; f_equal; lia|]. split.
        -- cbn [failed]. exists n, l, m, k, p, q, n'. repeat split; auto; lia.
        -- intros x. unfold upd. destruct (Nat.eqb_spec x i); [subst; exact R2|apply R].
  - (* insert *) cbn [sstep] in H. destruct (se i) as [ss|] eqn:Ei; [|discriminate]. destruct (Getr _ _ Ei) as (s & Es & Rs).
    pose proof (insert_t_out lt SW s ss v0 Rs) as X. destruct (sinsert lt false v0 ss) as [ss1 r]. injection H as <- <-. destruct X as (s1 & _ & R1 & O & _).
    apply (good_on e se (VInsert i v0) i s ss _ (insert_t lt v0) s1 r (fun r => BIterBool (fst r) (snd r)) ss1); auto. intros n k Hn Hk. cbn [failed]. destruct ss as [m l]. exists m, l, n. auto.
  - (* emplace *) cbn [sstep] in H. destruct (se i) as [ss|] eqn:Ei; [|discriminate]. destruct (Getr _ _ Ei) as (s & Es & Rs).
    pose proof (emplace_t_out lt SW s ss v0 Rs) as X. destruct (sinsert lt true v0 ss) as [ss1 r]. injection H as <- <-. destruct X as (s1 & _ & R1 & O).
    apply (good_on e se (VEmplace i v0) i s ss _ (emplace_t lt v0) s1 r (fun r => BIterBool (fst r) (snd r)) ss1); auto. intros n k Hn Hk. cbn [failed]. destruct ss as [m l]. exists m, l, n. auto.
  - (* erase *) unfold on in E. destruct (e i) as [s|] eqn:Es; [|discriminate].
    destruct (erase_key (ltKT k) (fun x => ltTK x k) s) as [[s1 n]|x|] eqn:Ek; [| |discriminate].
    + destruct (erase_stage (ltKT k) (fun x => ltTK x k) s s1 n Ek) as [d D]. injection E as <- <-. split.
      * exists d, (upd e i (Some s1)). split; auto. intros L a. cbn [VSetThrowModel.tstep]. unfold on_t. now rewrite Es, D, ticks_false.
      * intros L a. cbn [VSetThrowModel.tstep]. unfold on_t. rewrite Es, D. destruct (ticks d a) as [[|] a1].
        -- exists (upd e i (Some s)), a1. right. exists se, 0. cbn [wset leaks answers failed]. rewrite Nat.add_0_r. split; auto. split; auto.
           pose proof (R i) as Ri. rewrite Es in Ri. destruct (se i) as [ss|] eqn:Si; [|contradiction]. eapply envrel_upd_l; eauto.
        -- exists (upd e i (Some s1)), a1. left. auto.
    + injection E as <- <-. exfalso. cbn [sstep] in H. destruct (se i) as [ss|]; [|discriminate]. destruct (lookup _ _) as [[? ?]|]; discriminate.
  - get_inv H. eapply good_read; [eauto|apply find_node_sim|exact E|reflexivity|cbn; auto].
  - get_inv H. eapply good_read; [eauto|apply find_node_sim|exact E|reflexivity|cbn; auto].
  - get_inv H. eapply good_read; [eauto|apply find_index_sim|exact E|reflexivity|cbn; auto].
  - get_inv H. eapply good_read; [eauto|apply lower_sim|exact E|reflexivity|cbn; auto].
  - get_inv H. eapply good_read; [eauto|apply upper_sim|exact E|reflexivity|cbn; auto].
  - get_inv H. eapply good_read; [eauto|apply index_of_key_sim|exact E|reflexivity|cbn; auto].
  - (* equality *) destruct (e j) as [sj|] eqn:Ej; [|discriminate]. destruct (size sj) as [[s1 n]|x|] eqn:Esz; [|discriminate|discriminate]. cbn [rbind] in E.
    destruct (to_list sj) as [[s2 vs]|x|] eqn:El; [|discriminate|discriminate]. cbn [rbind] in E. get_inv H.
    eapply good_read; [eauto|apply equal_sim|exact E| |cbn; auto]. intros L a. cbn [VSetThrowModel.tstep]. now rewrite Ej, Esz, El.
Qed.
Lemma trun_fine os : forall e se se' vs, envrel e se -> srun lt ltKT ltTK se os = Some (se', vs, true) ->
  exists d e1, envrel e1 se' /\ forall L a, trun (e, L, repeat false d ++ a) os = Ok ((e1, L, a), map Some vs).
Proof.
  induction os as [|o os IH]; intros e se se' vs R S; cbn [srun] in S.
  - injection S as <- <-. exists 0, e. auto.
  - destruct (sstep lt ltKT ltTK se o) as [[se1 v]|] eqn:S1; [|discriminate]. destruct (srun lt ltKT ltTK se1 os) as [[[se2 vs2] b]|] eqn:S2; [|discriminate].
    injection S as <- <- Hb. apply andb_true_iff in Hb as [Su ->]. destruct (tstep_sim e se o se1 v R Su S1) as [(d1 & e1 & R1 & D1) _].
    destruct (IH e1 se1 se2 vs2 R1 S2) as (d2 & e2 & R2 & D2). exists (d1 + d2), e2. split; auto. intros L a. rewrite repeat_app, <- app_assoc.
    cbn [VSetThrowModel.trun]. rewrite D1. cbn [rbind]. rewrite D2. reflexivity.
Qed.
Lemma trun_app os : forall st o st1 vs, trun st os = Ok (st1, vs) -> trun st (os ++ o) = let* (st2, ws) := trun st1 o in Ok (st2, vs ++ ws).
Proof.
  induction os as [|x os IH]; intros st o st1 vs H; cbn [app VSetThrowModel.trun] in *.
  - injection H as <- <-. destruct (trun st o) as [[? ?]|?|]; reflexivity.
  - destruct (tstep st x) as [[st2 v]|?|]; try discriminate. cbn [rbind] in *. destruct (trun st2 os) as [[st3 ws]|?|] eqn:E; try discriminate.
    cbn [rbind] in H. injection H as <- <-. rewrite (IH _ o _ _ E). destruct (trun st3 o) as [[? ?]|?|]; reflexivity.
Qed.
Lemma trun_sim os : forall e se L a, envrel e se -> proper lt ltKT ltTK se os ->
  exists e1 L1 a1 vs se1, trun (e, L, a) os = Ok ((e1, L + L1, a1), vs) /\ allowed lt ltKT ltTK se os vs se1 L1 /\ envrel e1 se1.
Proof.
  induction os as [|o os IH]; intros e se L a R P; cbn [proper VSetThrowModel.trun] in *.
  - exists e, 0, a, [], se. rewrite Nat.add_0_r. repeat split; auto. constructor.
  - destruct P as (Su & (se' & v & S & P) & F). destruct (tstep_sim e se o se' v R Su S) as [_ O].
    destruct (O L a) as (e1 & a1 & [[E R1]|(se1 & k & E & Fk & R1)]); rewrite E; cbn [rbind].
    + destruct (IH e1 se' L a1 R1 P) as (e2 & L2 & a2 & vs & se2 & E2 & A2 & R2). exists e2, L2, a2, (Some v :: vs), se2. rewrite E2. cbn [rbind].
      repeat split; auto. econstructor; eauto.
    + destruct (IH e1 se1 (L + k) a1 R1 (F _ _ Fk)) as (e2 & L2 & a2 & vs & se2 & E2 & A2 & R2). exists e2, (k + L2), a2, (None :: vs), se2. rewrite E2. cbn [rbind].
      rewrite Nat.add_assoc. repeat split; auto. econstructor; eauto.
Qed.

(** C84: whatever throws, a program that keeps to the preconditions is defined, each call either
    does what it does without exceptions or has the effects that [failed] allows, and the nodes
    of each set are its elements. *)
Theorem vset_exceptions os ans : proper lt ltKT ltTK sinit os ->
  exists e n a vs se, trun (vinit, 0, ans) os = Ok ((e, n, a), vs) /\ allowed lt ltKT ltTK sinit os vs se n /\
    forall i, match se i with
              | Some ss => exists s, e i = Some s /\ forall a v, val s a = Some v <-> In (a, v) (snd ss)
              | None => e i = None
              end.
Proof.
  intros P. destruct (trun_sim os vinit sinit 0 ans (envrel_init lt) P) as (e & n & a & vs & se & E & A & R).
  exists e, n, a, vs, se. split; auto. split; auto. intros i. specialize (R i). destruct (e i) as [s|], (se i) as [ss|]; try contradiction; auto.
  destruct R as (t & R). exists s. split; auto. apply R.
Qed.
(** C84: an insertion in which the lookup or the allocation throws loses nothing; if the
    constructor throws, or the comparator at its last call, a block of memory is lost.  The call
    number [k] of the whole program throws. *)
Lemma ticks_at d : forall k, ticks d (repeat false k ++ [true]) = if k <? d then (true, []) else (false, repeat false (k - d) ++ [true]).
Proof.
  induction d as [|d IH]; intros k; [cbn; now rewrite Nat.sub_0_r|]. destruct k as [|k]; [reflexivity|]. cbn [repeat app ticks]. rewrite IH. reflexivity.
Qed.
Theorem vset_insert_leak_refuted os se vs i n l v : srun lt ltKT ltTK sinit os = Some (se, vs, true) -> se i = Some (n, l) ->
  (forall x, In x (elems l) -> lt v x = true \/ lt x v = true) ->
  exists d0 d, d0 < d /\ forall k, d0 <= k -> k <= d + length (firstn 1 l) ->
    exists e, trun (vinit, 0, repeat false k ++ [true]) (os ++ [VInsert i v]) = Ok ((e, if k <? d then 0 else 1, []), map Some vs ++ [None]).
Proof.
  intros S Si H. destruct (trun_fine os _ _ _ _ (envrel_init lt) S) as (d & e & R & D). destruct (envrel_some lt _ _ _ _ R Si) as (s & Es & Rs).
  pose proof (insert_t_eq lt SW s (n, l) v Rs) as X. unfold sinsert in X. cbn [fst snd] in X.
  assert (Hl : lookup (eqvT lt v) l = None).
  { apply find_none. apply Forall_forall. intros [b w] Hin. cbn [snd]. unfold eqvT. destruct (H w) as [->| ->]; auto; [|apply andb_false_r].
    apply in_map_iff. exists (b, w). auto. }
  rewrite Hl in X. destruct X as (s' & _ & _ & [(Hf & _)|(_ & d1 & s1 & R1 & X)]); [discriminate|].
  exists d, (d + (d1 + 1)). split; [lia|]. intros k Hk Hm. assert (Hrep : repeat false k = repeat false d ++ repeat false (k - d)) by (rewrite <- repeat_app; f_equal; lia). rewrite Hrep, <- app_assoc.
  rewrite (trun_app os _ _ _ _ (D 0 _)). cbn [VSetThrowModel.trun VSetThrowModel.tstep]. unfold on_t. rewrite Es, X, ticks_at.
  destruct (k - d <? d1 + 1) eqn:K1.
  - replace (k <? d + (d1 + 1)) with true by lia. eexists. reflexivity.
  - replace (k <? d + (d1 + 1)) with false by lia. rewrite ticks_at. destruct (k - d - (d1 + 1) <? 1) eqn:K2; [eexists; reflexivity|].
    destruct l as [|y l]; cbn [firstn length] in Hm; [lia|]. rewrite ticks_at. replace (k - d - (d1 + 1) - 1 <? 1) with true by lia. eexists. reflexivity.
Qed.
(** C84: a copy constructor that fails loses all the nodes made so far and the raw block of the
    next one. *)
Theorem vset_copy_leak_refuted os se vs i j n l p q : srun lt ltKT ltTK sinit os = Some (se, vs, true) -> se i = None -> se j = Some (n, l) ->
  elems l = p ++ q -> q <> [] ->
  exists ans e, trun (vinit, 0, ans) (os ++ [VCopy i j]) = Ok ((e, S (length p), []), map Some vs ++ [None]) /\ e i = None.
Proof.
  intros S Si Sj Ep Hq. destruct (trun_fine os _ _ _ _ (envrel_init lt) S) as (d & e & R & D). destruct (envrel_some lt _ _ _ _ R Sj) as (s & Es & Rs).
  pose proof (envrel_none lt _ _ _ R Si) as Ni. destruct (to_list_rel s _ Rs) as [El So]. cbn [snd] in *.
  destruct (insert_all_t_out lt SW (elems l) empty_st 0 [] (empty_rel lt)) as (s1 & _ & _ & _ & _ & X); [exact So|]. destruct (X p q Ep Hq) as (d1 & s2 & R2 & E2). cbn [app] in R2.
  exists (repeat false d ++ repeat false d1 ++ [true]), e. split; auto. rewrite (trun_app os _ _ _ _ (D 0 _)).
  cbn [VSetThrowModel.trun VSetThrowModel.tstep]. rewrite Ni, Es, El. cbn [rbind]. rewrite E2. cbn [rbind wset leaks answers].
  rewrite (live_rel lt s2 _ R2). cbn [snd]. rewrite combine_length, seq_length, Nat.min_id. reflexivity.
Qed.
(** C84: an assignment that fails loses the old elements. *)
Theorem vset_assign_throws_refuted os se vs i j n l m k p q : srun lt ltKT ltTK sinit os = Some (se, vs, true) -> i <> j -> se i = Some (n, l) -> se j = Some (m, k) ->
  elems k = p ++ q -> q <> [] ->
  exists ans e, trun (vinit, 0, ans) (os ++ [VAssign i j; VIter i; VIter j]) = Ok ((e, 1, []), map Some vs ++ [None; Some (BList p); Some (BList (p ++ q))]).
Proof.
  intros S Hij Si Sj Ep Hq. destruct (trun_fine os _ _ _ _ (envrel_init lt) S) as (d & e & R & D). destruct (envrel_some lt _ _ _ _ R Sj) as (s & Es & Rs).
  destruct (envrel_some lt _ _ _ _ R Si) as (si & Esi & Ri). destruct (to_list_rel s _ Rs) as [El So]. cbn [snd] in *. destruct (clear_rel lt _ _ Ri) as (s0 & E0 & R0 & _). cbn [fst] in R0.
  destruct (insert_all_t_out lt SW (elems k) s0 n [] R0) as (s1 & _ & _ & _ & _ & X); [exact So|]. destruct (X p q Ep Hq) as (d1 & s2 & R2 & E2). cbn [app] in R2.
  destruct (to_list_rel s2 _ R2) as [El2 _]. cbn [snd] in El2.
  assert (Hp : elems (combine (seq n (length p)) p) = p).
  { clear. unfold elems. revert n. induction p as [|x p IH]; intros n; cbn; [reflexivity|]. f_equal. apply IH. }
  rewrite Hp in El2.
  exists (repeat false d ++ repeat false d1 ++ [true]). eexists. rewrite (trun_app os _ _ _ _ (D 0 _)).
  cbn [VSetThrowModel.trun VSetThrowModel.tstep]. rewrite Esi, E0. cbn [rbind]. rewrite upd_neq, Es, El by auto. cbn [rbind]. unfold on_t at 1. rewrite upd_eq, E2.
  cbn [rbind wset leaks answers vstep VSetThrowModel.tstep]. unfold on.
rewrite upd_eq, El2. cbn [rbind VSetThrowModel.tstep vstep]. unfold on. rewrite !upd_neq, Es, El by auto. cbn [rbind]. rewrite Ep. reflexivity.
Qed.
End Sim.

(** ** Concrete cases: a set of numbers *)
Definition throw_demo : list (vop nat nat) := [VNew 0; VInsert 0 5; VInsert 0 2; VEmplace 0 9; VIter 0].
Lemma proper_insert {T K} (lt : T -> T -> bool) (a : K -> T -> bool) (b : T -> K -> bool) i v os se n l : se i = Some (n, l) ->
  (forall se n l, se i = Some (n, l) -> proper lt a b se os) -> proper lt a b se (VInsert i v :: os).
Proof.
  intros Si H. cbn [proper]. split; auto. split.
  - cbn [sstep]. rewrite Si. destruct (sinsert lt false v (n, l)) as [[n1 l1] r]. do 2 eexists. split; [reflexivity|]. eapply H. apply upd_eq.
  - intros se' k (n1 & l1 & n2 & E1 & -> & _). eapply H. apply upd_eq.
Qed.
Lemma proper_emplace {T K} (lt : T -> T -> bool) (a : K -> T -> bool) (b : T -> K -> bool) i v os se n l : se i = Some (n, l) ->
  (forall se n l, se i = Some (n, l) -> proper lt a b se os) -> proper lt a b se (VEmplace i v :: os).
Proof.
  intros Si H. cbn [proper]. split; auto. split.
  - cbn [sstep]. rewrite Si. destruct (sinsert lt true v (n, l)) as [[n1 l1] r]. do 2 eexists. split; [reflexivity|]. eapply H. apply upd_eq.
  - intros se' k (n1 & l1 & n2 & E1 & -> & _). eapply H. apply upd_eq.
Qed.
Example throw_demo_proper : proper Nat.ltb Nat.ltb Nat.ltb sinit throw_demo.
Proof.
  split; auto. split; [do 2 eexists; split; [reflexivity|]|intros ? ? []].
  eapply proper_insert; [reflexivity|]. intros se1 n1 l1 S1. eapply proper_insert; [exact S1|]. intros se2 n2 l2 S2. eapply proper_emplace; [exact S2|].
  intros se3 n3 l3 S3. split; auto. split; [|intros ? ? []]. cbn [sstep]. rewrite S3. do 2 eexists. split; [reflexivity|]. exact I.
Qed.
Local Notation obs_of x := match x with Ok ((_, n, _), vs) => Some (n, vs) | _ => None end.
(** The sixth call is the constructor of the second element; the third is the first comparison. *)
Example throw_demo_run :
  obs_of (trun Nat.ltb Nat.ltb Nat.ltb (vinit, 0, [false; false; false; false; false; true]) throw_demo) =
    Some (1, [Some BUnit; Some (BIterBool (Some 0) true); None; Some (BIterBool (Some 2) true); Some (BList [5; 9])]) /\
  obs_of (trun Nat.ltb Nat.ltb Nat.ltb (vinit, 0, [false; false; true]) throw_demo) =
    Some (0, [Some BUnit; Some (BIterBool (Some 0) true); None; Some (BIterBool (Some 1) true); Some (BList [5; 9])]) /\
  obs_of (trun Nat.ltb Nat.ltb Nat.ltb (vinit, 0, repeat false 24 ++ [true]) (throw_demo ++ [VCopy 1 0])) =
    Some (3, [Some BUnit; Some (BIterBool (Some 0) true); Some (BIterBool (Some 1) true); Some (BIterBool (Some 2) true); Some (BList [2; 5; 9]); None]).
Proof. repeat split. Qed.
