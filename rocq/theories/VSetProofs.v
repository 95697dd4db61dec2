(** vector_set refines the sorted list of VSetSpec.v. *)
From Verif Require Import Common VSetModel VSetProg VSetSpec VSetTree VSetRotate VSetInsert VSetRemove VSetLookup VSetList VSetOps.
From Coq Require Import ZifyBool ZifyNat Sorted.

Section Proofs.
Context {T K : Type} (lt : T -> T -> bool) (ltKT : K -> T -> bool) (ltTK : T -> K -> bool).
Context (SW : strict_weak lt) (KO : keys_ok lt ltKT ltTK).
Implicit Types (s : st T).

Definition sorted (vs : list T) : Prop := StronglySorted (fun x y => lt x y = true) vs.

Record RelT s (t : tree) (ss : @sset T) : Prop := {
  r_core : Core s t;
  r_ino : ino t = map fst (snd ss);
  r_fresh : fresh s = fst ss;
  r_val : forall a v, val s a = Some v <-> In (a, v) (snd ss);
  r_sorted : sorted (elems (snd ss))
}.
Definition Rel s ss : Prop := exists t, RelT s t ss.

(** What a pair of comparisons with a fixed key must satisfy. *)
Record keyp (ltk gtk : T -> bool) : Prop := {
  kp_excl : forall x, ltk x = true -> gtk x = false;
  kp_up : forall x y, ltk x = true -> lt x y = true -> ltk y = true;
  kp_down : forall x y, lt x y = true -> gtk y = true -> gtk x = true;
  kp_single : forall x y, lt x y = true -> negb (ltk x) && negb (gtk x) = true -> negb (ltk y) && negb (gtk y) = false
}.
Lemma keyp_key k : keyp (ltKT k) (fun x => ltTK x k).
Proof.
  split; intros.
  - now apply (ko_excl _ _ _ KO).
  - eapply (ko_up _ _ _ KO); eauto.
  - eapply (ko_down _ _ _ KO); eauto.
  - apply (ko_single _ _ _ KO k x y); auto.
Qed.
Lemma lt_asym x y : lt x y = true -> lt y x = false.
Proof.
  intros H. destruct (lt y x) eqn:E'; auto. rewrite <- (sw_irrefl _ SW x). symmetry. eapply (sw_trans _ SW); eauto.
Qed.
Lemma keyp_val v : keyp (fun x => lt v x) (fun x => lt x v).
Proof.
  split; intros.
  - now apply lt_asym.
  - eapply (sw_trans _ SW); eauto.
  - eapply (sw_trans _ SW); eauto.
  - destruct (negb (lt v y) && negb (lt y v)) eqn:E'; auto.
    apply andb_true_iff in H0 as [H0 H1], E' as [H2 H3]. apply negb_true_iff in H0, H1, H2, H3.
    pose proof (sw_incomp _ SW _ _ _ H1 H2). congruence.
Qed.

(** *** Lists *)
Lemma find_app {A} (p : A -> bool) l1 l2 : find p (l1 ++ l2) = match find p l1 with Some x => Some x | None => find p l2 end.
Proof. induction l1 as [|a l1 IH]; simpl; auto. destruct (p a); auto. Qed.
Lemma find_none {A} (p : A -> bool) l : Forall (fun x => p x = false) l -> find p l = None.
Proof. induction 1 as [|a l H _ IH]; simpl; auto. now rewrite H. Qed.
Lemma filter_all {A} (p : A -> bool) l : Forall (fun x => p x = true) l -> filter p l = l.
Proof. induction 1 as [|a l H _ IH]; simpl; auto. rewrite H. now f_equal. Qed.
Lemma filter_none {A} (p : A -> bool) l : Forall (fun x => p x = false) l -> filter p l = [].
Proof. induction 1 as [|a l H _ IH]; simpl; auto. now rewrite H. Qed.
Lemma pos_app {A} (p : A -> bool) l1 a l2 : Forall (fun x => p x = false) l1 -> p a = true -> pos p (l1 ++ a :: l2) = Some (length l1).
Proof. intros H Ha. induction H as [|b l1 H _ IH]; simpl; [now rewrite Ha|]. now rewrite H, IH. Qed.
Lemma pos_none {A} (p : A -> bool) l : Forall (fun x => p x = false) l -> pos p l = None.
Proof. induction 1 as [|a l H _ IH]; simpl; auto. now rewrite H, IH. Qed.
Lemma pos_some {A} (p : A -> bool) l n : pos p l = Some n -> exists l1 a l2, l = l1 ++ a :: l2 /\ p a = true /\ length l1 = n.
Proof.
  revert n; induction l as [|a l IH]; simpl; intros n H; [discriminate|]. destruct (p a) eqn:Ep.
  - injection H as <-. exists [], a, l. auto.
  - destruct (pos p l) as [m|]; [|discriminate]. injection H as <-. destruct (IH m eq_refl) as (l1 & b & l2 & -> & H1 & H2).
    exists (a :: l1), b, l2. simpl. auto.
Qed.
Lemma existsb_none {A} (p : A -> bool) l : Forall (fun x => p x = false) l -> existsb p l = false.
Proof. induction 1 as [|a l H _ IH]; simpl; auto. now rewrite H. Qed.
Lemma map_app_split {A B} (f : A -> B) l m1 m2 : map f l = m1 ++ m2 -> exists l1 l2, l = l1 ++ l2 /\ map f l1 = m1 /\ map f l2 = m2.
Proof.
  revert m1; induction l as [|a l IH]; intros m1 H; simpl in H.
  - symmetry in H. apply app_eq_nil in H as [-> ->]. exists [], []. auto.
  - destruct m1 as [|b m1]; simpl in H.
    + exists [], (a :: l). auto.
    + injection H as <- H. destruct (IH _ H) as (l1 & l2 & -> & <- & <-). exists (a :: l1), l2. auto.
Qed.
Lemma sorted_mid l1 x l2 : sorted (l1 ++ x :: l2) -> Forall (fun y => lt y x = true) l1 /\ Forall (fun y => lt x y = true) l2.
Proof. intros H. apply ss_mid in H as [H1 H2]. auto. Qed.

(** *** Search *)
Record vrel s (t : tree) l : Prop := {
  v_foc : foc s t [];
  v_ino : ino t = map fst l;
  v_val : forall a v, In (a, v) l -> val s a = Some v;
  v_sorted : sorted (elems l)
}.

Lemma vrel_nodup s t l : vrel s t l -> NoDup (map fst l).
Proof. intros H. rewrite <- (v_ino _ _ _ H). eapply foc_nodup, v_foc; eauto. Qed.

Lemma mono_dk ltk gtk s t l : keyp ltk gtk -> vrel s t l -> mono (dk s ltk gtk) (ino t).
Proof.
  intros KP [F Hi Hv Hs]. unfold mono. rewrite Hi. clear Hi F. induction l as [|[a v] l IH]; simpl in *; [constructor|].
  inversion Hs as [|? ? H1 H2]; subst. constructor.
  - apply IH; auto.
  - apply Forall_forall. intros b Hb. apply in_map_iff in Hb as ((b' & w) & Hb' & Hin). simpl in Hb'. subst b'.
    assert (Hlt : lt v w = true). { rewrite Forall_forall in H2. apply H2. apply in_map_iff. exists (b, w). auto. }
    unfold dk. rewrite (Hv a v), (Hv b w) by auto.
    pose proof (fun H => kp_up _ _ KP v w H Hlt) as Up. pose proof (kp_down _ _ KP v w Hlt) as Dn. pose proof (kp_excl _ _ KP v) as Ex1. pose proof (kp_excl _ _ KP w) as Ex2.
    destruct (ltk v), (gtk v), (ltk w), (gtk w); auto; try (specialize (Up eq_refl)); try specialize (Dn eq_refl); try discriminate;
      try (specialize (Ex1 eq_refl); discriminate); try (specialize (Ex2 eq_refl); discriminate); try tauto; split; intros; try discriminate; auto.
Qed.
Lemma search_found ltk gtk s t l c lf a r C : keyp ltk gtk -> vrel s t l ->
  srch (dk s ltk gtk) t [] = (N c lf a r, C) ->
  exists l1 v l2, l = l1 ++ (a, v) :: l2 /\ map fst l1 = cpre C ++ ino lf /\ map fst l2 = ino r ++ cpost C /\
    ltk v = false /\ gtk v = false /\
    Forall (fun e => ltk (snd e) = false /\ gtk (snd e) = true) l1 /\ Forall (fun e => ltk (snd e) = true /\ gtk (snd e) = false) l2.
Proof.
  intros KP V Es. pose proof (srch_plug (dk s ltk gtk) t []) as Hp. rewrite Es in Hp. simpl in Hp.
  destruct (srch_sound (dk s ltk gtk) t []) as (_ & _ & H3); [eapply mono_dk; eauto|constructor|constructor|].
  rewrite Es in H3. cbn [fst] in H3.
  pose proof (v_ino _ _ _ V) as Hi. rewrite <- Hp, ino_plug in Hi. cbn [ino] in Hi.
  assert (Hi' : map fst l = (cpre C ++ ino lf) ++ a :: (ino r ++ cpost C)).
  { rewrite <- Hi, <- ?app_assoc. simpl. rewrite <- ?app_assoc. reflexivity. }
  clear Hi. apply map_app_split in Hi' as (l1 & l2' & -> & H1 & H2).
  destruct l2' as [|[a' v] l2]; [discriminate|]. simpl in H2. injection H2 as -> H2.
  exists l1, v, l2. split; auto. split; auto. split; auto.
  assert (Hv : val s a = Some v). { apply (v_val _ _ _ V). apply in_or_app. right. now left. }
  unfold dk in H3. rewrite Hv in H3.
  assert (Hl : ltk v = false) by (destruct (ltk v); [discriminate|auto]).
  assert (Hg : gtk v = false) by (rewrite Hl in H3; destruct (gtk v); [discriminate|auto]).
  split; auto. split; auto.
  pose proof (v_sorted _ _ _ V) as Hs. unfold elems in Hs. rewrite map_app in Hs. simpl in Hs. apply sorted_mid in Hs as [S1 S2].
  assert (He : negb (ltk v) && negb (gtk v) = true) by now rewrite Hl, Hg.
  split; apply Forall_forall; intros [b w] Hin; simpl.
  - rewrite Forall_forall in S1. assert (Hlt : lt w v = true) by (apply S1; apply in_map_iff; exists (b, w); auto).
    destruct (ltk w) eqn:E1.
    + pose proof (kp_up _ _ KP _ _ E1 Hlt). congruence.
    + split; auto. destruct (gtk w) eqn:E2; auto. pose proof (kp_single _ _ KP _ _ Hlt) as H. rewrite E1, E2 in H. specialize (H eq_refl). congruence.
  - rewrite Forall_forall in S2. assert (Hlt : lt v w = true) by (apply S2; apply in_map_iff; exists (b, w); auto).
    pose proof (kp_single _ _ KP _ _ Hlt He) as H.
    destruct (ltk w) eqn:E1.
    + split; auto. now apply (kp_excl _ _ KP).
    + destruct (gtk w) eqn:E2; [|discriminate]. pose proof (kp_down _ _ KP _ _ Hlt E2). congruence.
Qed.

Lemma search_missed ltk gtk s t l C : keyp ltk gtk -> vrel s t l ->
  srch (dk s ltk gtk) t [] = (E, C) ->
  exists l1 l2, l = l1 ++ l2 /\ map fst l1 = cpre C /\ map fst l2 = cpost C /\ plug E C = t /\
    Forall (fun a => dk s ltk gtk a = Some R) (cpre C) /\ Forall (fun a => dk s ltk gtk a = Some L) (cpost C) /\
    Forall (fun e => ltk (snd e) = false /\ gtk (snd e) = true) l1 /\ Forall (fun e => ltk (snd e) = true /\ gtk (snd e) = false) l2.
Proof.
  intros KP V Es. pose proof (srch_plug (dk s ltk gtk) t []) as Hp. rewrite Es in Hp. simpl in Hp.
  destruct (srch_sound (dk s ltk gtk) t []) as (H1 & H2 & _); [eapply mono_dk; eauto|constructor|constructor|].
  rewrite Es in H1, H2. cbn [snd] in *.
  pose proof (v_ino _ _ _ V) as Hi. rewrite <- Hp, ino_plug in Hi. cbn [ino app] in Hi. symmetry in Hi.
  apply map_app_split in Hi as (l1 & l2 & -> & E1 & E2).
  exists l1, l2. split; auto. split; auto. split; auto. split; auto. split; auto. split; auto.
  split; apply Forall_forall; intros [b w] Hin; simpl.
  - rewrite Forall_forall in H1. assert (Hb : In b (cpre C)) by (rewrite <- E1; apply in_map_iff; exists (b, w); auto).
    apply H1 in Hb. unfold dk in Hb. rewrite (v_val _ _ _ V b w) in Hb by (apply in_or_app; auto).
    destruct (ltk w); [discriminate|]. destruct (gtk w); [auto|discriminate].
  - rewrite Forall_forall in H2. assert (Hb : In b (cpost C)) by (rewrite <- E2; apply in_map_iff; exists (b, w); auto).
    apply H2 in Hb. unfold dk in Hb. rewrite (v_val _ _ _ V b w) in Hb by (apply in_or_app; auto).
    destruct (ltk w) eqn:E3; [|destruct (gtk w); discriminate]. split; auto. now apply (kp_excl _ _ KP).
Qed.

(** All the searches at once, in terms of the list. *)
Lemma search_ok ltk gtk s t l : keyp ltk gtk -> vrel s t l ->
  exists l1 mid l2, l = l1 ++ mid ++ l2 /\
    Forall (fun e => ltk (snd e) = false /\ gtk (snd e) = true) l1 /\
    Forall (fun e => ltk (snd e) = true /\ gtk (snd e) = false) l2 /\
    Forall (fun e => ltk (snd e) = false /\ gtk (snd e) = false) mid /\ length mid <= 1 /\
    find_node ltk gtk s = Ok (s, handle (hd_error mid)) /\
    find_index ltk gtk s = Ok (s, match mid with [] => None | (a, _) :: _ => Some (a, length l1) end) /\
    find_bound ltk gtk s = Ok (s, match mid with [] => (handle (hd_error l2), false) | (a, _) :: _ => (Some a, true) end).
Proof.
  intros KP V. pose proof (v_foc _ _ _ V) as F.
  rewrite (find_node_ok s t), (find_index_ok s t), (bound_ok s t) by exact F.
  destruct (srch (dk s ltk gtk) t []) as [[|c lf a r] C] eqn:Es.
  - destruct (search_missed _ _ _ _ _ _ KP V Es) as (l1 & l2 & -> & H1 & H2 & _ & _ & _ & H3 & H4).
    exists l1, [], l2. simpl. split; [reflexivity|]. split; [auto|]. split; [auto|]. split; [constructor|]. split; [lia|]. split; [auto|]. split; [auto|].
    do 3 f_equal. rewrite <- H2. destruct l2; reflexivity.
  - destruct (search_found _ _ _ _ _ _ _ _ _ _ KP V Es) as (l1 & v & l2 & -> & H1 & H2 & H3 & H4 & H5 & H6).
    exists l1, [(a, v)], l2. simpl. split; [reflexivity|]. split; [auto|]. split; [auto|]. split; [constructor; auto|]. split; [lia|]. split; [auto|]. split; [|auto].
    do 4 f_equal. rewrite <- H1. now rewrite map_length.
Qed.

Lemma RelT_vrel s t ss : RelT s t ss -> vrel s t (snd ss).
Proof. intros [C1 C2 C3 C4 C5]. split; auto. - apply C1. - intros a v H. now apply C4. Qed.

(** *** Inserting *)
Lemma insert_at s t h l v C :
  Core s t -> ino t = map fst l -> fresh s = S h -> sorted (elems l) ->
  (forall a w, a <> h -> (val s a = Some w <-> In (a, w) l)) -> ~ In h (map fst l) ->
  val s h = Some v -> lft s h = None -> rgt s h = None -> cnt s h = 0 ->
  srch (dk s (fun x => lt v x) (fun x => lt x v)) t [] = (E, C) ->
  exists s', insert_node lt (Some h) (up C) s = Ok (s', tt) /\
    RelT s' (blk (fix_ins (N Red E h E) C)) (S h, sins lt h v l) /\ plug E C = t /\
    lookup (eqvT lt v) l = None.
Proof.
  intros Co Hi Hf Hs Hv Hh Vh Lh Rh Nh Es.
  assert (V : vrel s t l).
  { split; auto. - apply Co. - intros a w H. apply Hv; auto. intros ->. apply Hh. apply in_map_iff. exists (h, w). auto. }
  destruct (search_missed _ _ _ _ _ _ (keyp_val v) V Es) as (l1 & l2 & -> & H1 & H2 & Hp & G1 & G2 & H3 & H4).
  assert (Hcm : cm C h = 0).
  { destruct (Nat.eq_dec (cm C h) 0); auto. exfalso. apply Hh. rewrite <- Hi, <- Hp. apply tm_In. rewrite tm_plug. simpl. lia. }
  destruct (insert_node_ok lt s C h v) as (s' & E1 & V1 & F1 & Co1); auto.
  - apply (proj2 (foc_plug _ _ _)). rewrite Hp. apply Co.
  - rewrite Hp. apply Co.
  - rewrite Hp. apply Co.
  - lia.
  - destruct C as [|[d c p sb] C]; auto.
    assert (Hg : dk s (fun x => lt v x) (fun x => lt x v) p = Some d).
    { destruct d; simpl in G1, G2; rewrite Forall_forall in G1, G2; [apply G2|apply G1]; rewrite ?in_app_iff; simpl; auto. }
    unfold dk in Hg. destruct (val s p) as [pv|] eqn:Ep; [|discriminate]. exists pv. split; auto.
    destruct (lt v pv); [injection Hg as <-; split; [auto|discriminate]|]. destruct (lt pv v); [injection Hg as <-; auto|discriminate].
  - exists s'. split; auto.
    assert (Hsins : sins lt h v (l1 ++ l2) = l1 ++ (h, v) :: l2).
    { unfold sins. rewrite !filter_app. rewrite (filter_all _ l1), (filter_none _ l2), (filter_none _ l1), (filter_all _ l2); [now rewrite app_nil_r|..];
      eapply Forall_impl; try exact H3; try exact H4; intros [b w]; simpl; intros [Ha Hb]; now rewrite Hb. }
    split; [|split; [exact Hp|]].
    + split; auto; cbn [fst snd].
      * rewrite ino_blk, (ino_fix (length C)) by auto. rewrite ino_plug, Hsins, map_app. simpl. now rewrite H1, H2.
      * congruence.
      * intros a w. rewrite V1, Hsins. destruct (Nat.eq_dec a h) as [->|Ha].
        -- rewrite Vh. split.
           ++ intros HH. injection HH as <-. apply in_or_app. right. now left.
           ++ intros Hin. apply in_app_iff in Hin as [Hin|[Hin|Hin]]; [|congruence|]; exfalso; apply Hh; rewrite map_app; apply in_or_app; [left|right]; apply in_map_iff; eexists; split; eauto; auto.
        -- rewrite Hv by auto. rewrite !in_app_iff. simpl. split; [tauto|]. intros [?|[HH|?]]; auto. congruence.
      * rewrite Hsins. unfold elems in *. rewrite map_app in *. simpl. apply ss_app_inv in Hs as (S1 & S2 & S3).
        apply ss_app; auto.
        -- constructor; auto. apply Forall_forall. intros w Hw. apply in_map_iff in Hw as ((b & w') & <- & Hin).
           rewrite Forall_forall in H4. now apply H4 in Hin.
        -- apply Forall_forall. intros w Hw. constructor.
           ++ apply in_map_iff in Hw as ((b & w') & <- & Hin). rewrite Forall_forall in H3. now apply H3 in Hin.
           ++ rewrite Forall_forall in S3. auto.
    + unfold lookup. apply find_none. apply Forall_app. split; eapply Forall_impl; try exact H3; try exact H4; intros [b w]; simpl; unfold eqvT; intros [-> ->]; reflexivity.
Qed.

Lemma find_parent_val s t l v : vrel s t l ->
  (exists C, find_node_parent (fun x => lt v x) (fun x => lt x v) s = Ok (s, (None, up C)) /\
     srch (dk s (fun x => lt v x) (fun x => lt x v)) t [] = (E, C)) \/
  (exists a w p, find_node_parent (fun x => lt v x) (fun x => lt x v) s = Ok (s, (Some a, p)) /\
     lookup (eqvT lt v) l = Some (a, w)).
Proof.
  intros V. rewrite (find_parent_ok s t) by apply V.
  destruct (srch (dk s (fun x => lt v x) (fun x => lt x v)) t []) as [[|c lf a r] C] eqn:Es; [left; eauto|right].
  destruct (search_found _ _ _ _ _ _ _ _ _ _ (keyp_val v) V Es) as (l1 & w & l2 & -> & H1 & H2 & H3 & H4 & H5 & H6).
  exists a, w, (up C). split; auto. unfold lookup. rewrite find_app, find_none.
  - simpl. unfold eqvT. now rewrite H3, H4.
  - eapply Forall_impl; [|exact H5]. intros [b x]; simpl. unfold eqvT. intros [-> ->]. reflexivity.
Qed.

Lemma Rel_lt s t ss a v : RelT s t ss -> In (a, v) (snd ss) -> a < fst ss.
Proof.
  intros R H. rewrite <- (r_fresh _ _ _ R). eapply foc_lt; [apply R|]. rewrite (r_ino _ _ _ R). apply in_map_iff. exists (a, v). auto.
Qed.
Lemma Rel_notin s t ss : RelT s t ss -> ~ In (fst ss) (map fst (snd ss)).
Proof. intros R H. apply in_map_iff in H as ((a & v) & Ha & H). simpl in Ha. subst a. apply (Rel_lt _ _ _ _ _ R) in H. lia. Qed.

(** How one insertion changes the ghost tree. *)
Definition grows (t t' : tree) : Prop :=
  t' = t \/ exists h C, plug E C = t /\ t' = blk (fix_ins (N Red E h E) C).

Lemma insert_relT s t ss v : RelT s t ss ->
  let (ss', r) := sinsert lt false v ss in exists s' t', insert lt v s = Ok (s', r) /\ RelT s' t' ss' /\ grows t t'.
Proof.
  intros R. destruct ss as [h l]. pose proof (RelT_vrel _ _ _ R) as V. cbn [snd] in V. unfold sinsert. cbn [fst snd].
  destruct (find_parent_val s t l v V) as [(C & Ef & Es)|(a & w & p & Ef & El)].
  - unfold insert. pose proof (r_fresh _ _ _ R) as Hf. simpl in Hf.
    destruct (create_ok s t v (r_core _ _ _ R)) as (s1 & E1 & Co1 & V1 & F1 & L1 & R1 & N1 & X1). rewrite Hf in *.
    assert (Es1 : srch (dk s1 (fun x => lt v x) (fun x => lt x v)) t [] = (E, C)).
    { rewrite <- Es. apply srch_ext. intros a Ha. unfold dk. rewrite V1, upd_neq; auto.
      intros ->. rewrite (r_ino _ _ _ R) in Ha. now apply (Rel_notin _ _ _ R) in Ha. }
    destruct (insert_at s1 t h l v C) as (s2 & E2 & R2 & Hp & Hn); auto.
    + apply R.
    + apply R.
    + intros a w Ha. rewrite V1, upd_neq by auto. apply (r_val _ _ _ R).
    + apply (Rel_notin _ _ _ R).
    + rewrite V1. apply upd_eq.
    + rewrite Hn. exists s2, (blk (fix_ins (N Red E h E) C)). split; [|split; [exact R2|right; eauto]].
      rewrite (bind_ok _ _ _ _ _ Ef). cbn [fst snd]. rewrite (bind_ok _ _ _ _ _ E1).
      rewrite (bind_ok _ _ _ _ _ E2). reflexivity.
  - rewrite El. exists s, t. split; [|split; [exact R|now left]]. unfold insert. rewrite (bind_ok _ _ _ _ _ Ef). reflexivity.
Qed.

Lemma emplace_relT s t ss v : RelT s t ss ->
  let (ss', r) := sinsert lt true v ss in exists s' t', emplace lt v s = Ok (s', r) /\ RelT s' t' ss' /\ grows t t'.
Proof.
  intros R. destruct ss as [h l]. unfold sinsert, emplace. cbn [fst snd].
  pose proof (r_fresh _ _ _ R) as Hf. simpl in Hf.
  destruct (create_ok s t v (r_core _ _ _ R)) as (s1 & E1 & Co1 & V1 & F1 & L1 & R1 & N1 & X1). rewrite Hf in *.
  assert (Hv1 : forall a w, a <> h -> (val s1 a = Some w <-> In (a, w) l)).
  { intros a w Ha. rewrite V1, upd_neq by auto. apply (r_val _ _ _ R). }
  assert (Hni : ~ In h (map fst l)) by apply (Rel_notin _ _ _ R).
  assert (Hh1 : val s1 h = Some v) by (rewrite V1; apply upd_eq).
  assert (V : vrel s1 t l).
  { split; try apply R; try apply Co1. intros a w H. apply Hv1; auto. intros ->. apply Hni. apply in_map_iff. exists (h, w). auto. }
  destruct (find_parent_val s1 t l v V) as [(C & Ef & Es)|(a & w & p & Ef & El)].
  - destruct (insert_at s1 t h l v C) as (s2 & E2 & R2 & Hp & Hn); auto; try apply R.
    rewrite Hn. exists s2, (blk (fix_ins (N Red E h E) C)). split; [|split; [exact R2|right; eauto]]. rewrite (bind_ok _ _ _ _ _ E1). rewrite (rd_val_run s1 h v) by auto.
    rewrite (bind_ok _ _ _ _ _ Ef). cbn [fst snd]. rewrite (bind_ok _ _ _ _ _ E2). reflexivity.
  - rewrite El.
    destruct (destroy_new_ok s1 t h Co1) as (s2 & E2 & Co2 & V2 & F2); auto.
    { rewrite (r_ino _ _ _ R). exact Hni. } { unfold alive. now rewrite Hh1. }
    exists s2, t. split; [|split; [|now left]].
    + rewrite (bind_ok _ _ _ _ _ E1). rewrite (rd_val_run s1 h v) by auto.
      rewrite (bind_ok _ _ _ _ _ Ef). cbn [fst snd]. rewrite (bind_ok _ _ _ _ _ E2). reflexivity.
    + split; auto; cbn [fst snd]; try apply R.
      * congruence.
      * intros b x. rewrite V2. destruct (Nat.eq_dec b h) as [->|Hb].
        -- rewrite upd_eq. split; [discriminate|]. intros Hin. exfalso. apply Hni. apply in_map_iff. exists (h, x). auto.
        -- rewrite upd_neq by auto. now apply Hv1.
Qed.

Lemma insert_rel s ss v : Rel s ss ->
  let (ss', r) := sinsert lt false v ss in exists s', insert lt v s = Ok (s', r) /\ Rel s' ss'.
Proof.
  intros (t & R). pose proof (insert_relT s t ss v R) as H. destruct (sinsert lt false v ss) as [ss' r].
  destruct H as (s' & t' & E1 & R1 & _). exists s'. split; auto. now exists t'.
Qed.
Lemma emplace_rel s ss v : Rel s ss ->
  let (ss', r) := sinsert lt true v ss in exists s', emplace lt v s = Ok (s', r) /\ Rel s' ss'.
Proof.
  intros (t & R). pose proof (emplace_relT s t ss v R) as H. destruct (sinsert lt true v ss) as [ss' r].
  destruct H as (s' & t' & E1 & R1 & _). exists s'. split; auto. now exists t'.
Qed.

(** *** Erasing *)
Lemma erase_rel s h l1 a v l2 : Rel s (h, l1 ++ (a, v) :: l2) ->
  exists s', erase_it (Some a) s = Ok (s', tt) /\ Rel s' (serase a (h, l1 ++ (a, v) :: l2)).
Proof.
  intros (t & R). pose proof (RelT_vrel _ _ _ R) as V. pose proof (vrel_nodup _ _ _ V) as Hn. cbn [snd] in *.
  pose proof (r_ino _ _ _ R) as Hi. cbn [snd] in Hi. rewrite map_app in Hi, Hn. simpl in Hi, Hn.
  destruct (remove_node_ok s t (map fst l1) a (map fst l2) (r_core _ _ _ R) Hi) as (s' & t' & E1 & Co1 & I1 & V1 & F1).
  exists s'. split; auto.
  assert (Hna : ~ In a (map fst l1 ++ map fst l2)) by (eapply NoDup_remove_2; eauto).
  assert (Hx : forall b w, In (b, w) (l1 ++ l2) -> b <> a).
  { intros b w Hin ->. apply Hna. rewrite <- map_app. apply in_map_iff. exists (a, w). auto. }
  assert (Hf : serase a (h, l1 ++ (a, v) :: l2) = (h, l1 ++ l2)).
  { unfold serase. cbn [fst snd]. f_equal. rewrite filter_app. simpl. rewrite Nat.eqb_refl. simpl.
    rewrite <- filter_app. apply filter_all. apply Forall_forall. intros [b w] Hin. simpl. specialize (Hx b w Hin).
    apply Nat.eqb_neq in Hx. now rewrite Hx. }
  rewrite Hf. exists t'. split; auto; cbn [fst snd].
  - now rewrite map_app.
  - rewrite F1. apply R.
  - intros b w. rewrite V1. destruct (Nat.eq_dec b a) as [->|Hb].
    + rewrite upd_eq. split; [discriminate|]. intros Hin. apply Hx in Hin. congruence.
    + rewrite upd_neq by auto. rewrite (r_val _ _ _ R). cbn [snd]. rewrite !in_app_iff. simpl. split; [|tauto]. intros [?|[HH|?]]; auto. congruence.
  - pose proof (r_sorted _ _ _ R) as Hs. cbn [snd] in Hs. unfold elems in *. rewrite map_app in *. simpl in Hs.
    apply ss_app_inv in Hs as (S1 & S2 & S3). inversion S2; subst. apply ss_app; auto.
    eapply Forall_impl; [|exact S3]. intros x Hx'. now inversion Hx'.
Qed.

Lemma clear_rel s ss : Rel s ss -> exists s', clear s = Ok (s', tt) /\ Rel s' (fst ss, []) /\ (forall a, val s' a = None).
Proof.
  intros (t & R). destruct (clear_ok s t (r_core _ _ _ R)) as (s' & E1 & Co1 & F1 & V1).
  assert (Hn : forall a, val s' a = None).
  { intros a. rewrite V1. destruct (existsb (Nat.eqb a) (ino t)) eqn:Ee; auto.
    destruct (val s a) as [v|] eqn:Ev; auto. apply (r_val _ _ _ R) in Ev.
    assert (existsb (Nat.eqb a) (ino t) = true); [|congruence].
    apply existsb_exists. exists a. split; [|apply Nat.eqb_refl]. rewrite (r_ino _ _ _ R). apply in_map_iff. exists (a, v). auto. }
  exists s'. split; auto. split; auto. exists E. split; auto; cbn [fst snd].
  - rewrite F1. apply R.
  - intros a v. rewrite Hn. split; [discriminate|intros []].
  - constructor.
Qed.

Lemma empty_rel : Rel empty_st (0, []).
Proof.
  exists E. split; auto; cbn [fst snd].
  - split; [split|exact I|]; simpl; auto; intros; try lia. repeat split.
  - intros a v. simpl. split; [discriminate|intros []].
  - constructor.
Qed.

Lemma insert_all_rel vs : forall s h l, Rel s (h, l) -> sorted (elems l ++ vs) ->
  exists s', insert_all lt vs s = Ok (s', tt) /\ Rel s' (h + length vs, l ++ combine (seq h (length vs)) vs).
Proof.
  induction vs as [|v vs IH]; intros s h l R Hs; simpl.
  - exists s. split; auto. rewrite app_nil_r, Nat.add_0_r. exact R.
  - pose proof (insert_rel s (h, l) v R) as Hi. unfold sinsert in Hi. cbn [fst snd] in Hi.
    pose proof Hs as Hm. apply sorted_mid in Hm as [H1 H2].
    assert (Hl : lookup (eqvT lt v) l = None).
    { apply find_none. apply Forall_forall. intros [b w] Hin. simpl. unfold eqvT. rewrite Forall_forall in H1.
      rewrite (H1 w); [now rewrite andb_false_r|]. apply in_map_iff. exists (b, w). auto. }
    rewrite Hl in Hi. destruct Hi as (s1 & E1 & R1).
    assert (Hsn : sins lt h v l = l ++ [(h, v)]).
    { assert (Hall : Forall (fun e : nat * T => lt (snd e) v = true) l).
      { apply Forall_forall. intros [b w] Hin. simpl. rewrite Forall_forall in H1. apply H1. apply in_map_iff. exists (b, w). auto. }
      unfold sins. rewrite filter_all by auto. rewrite filter_none; auto. eapply Forall_impl; [|exact Hall]. intros e ->. reflexivity. }
    rewrite Hsn in R1. destruct (IH s1 (S h) (l ++ [(h, v)]) R1) as (s2 & E2 & R2).
    + unfold elems in *. rewrite map_app, <- app_assoc. exact Hs.
    + exists s2. split; [rewrite (bind_ok _ _ _ _ _ E1); exact E2|]. rewrite <- app_assoc in R2. simpl in R2.
      replace (h + S (length vs)) with (S h + length vs) by lia. exact R2.
Qed.

(** *** Reading *)
Lemma Rel_parts s ss : Rel s ss -> exists t, foc s t [] /\ ino t = map fst (snd ss) /\ lnk s (map fst (snd ss)) /\
  all_alive s (map fst (snd ss)) /\ NoDup (map fst (snd ss)) /\ vals s (map fst (snd ss)) (elems (snd ss)) /\
  length (snd ss) <= fresh s /\ vrel s t (snd ss).
Proof.
  intros (t & R). pose proof (RelT_vrel _ _ _ R) as V. exists t. destruct R as [[F Rb L] Hi Hf Hv Hs].
  split; auto. split; auto. split; [now rewrite <- Hi|]. split; [rewrite <- Hi; now apply foc_all_alive|].
  split; [rewrite <- Hi; now apply (foc_nodup s)|]. split; [|split; auto].
  - unfold vals, elems. clear - Hv. destruct ss as [h l]. cbn [snd] in *. assert (Hv' : forall a v, In (a, v) l -> val s a = Some v) by (intros; now apply Hv).
    clear Hv. induction l as [|[a v] l IH]; simpl; constructor; [apply Hv'; now left|]. apply IH. intros; apply Hv'; now right.
  - pose proof (foc_len _ _ F) as H. rewrite Hi, map_length in H. exact H.
Qed.

Lemma hd_handle (l : list (nat * T)) : hd_error (map fst l) = handle (hd_error l) :> option nat.
Proof. destruct l as [|[a v] l]; reflexivity. Qed.
Lemma nth_handle (l : list (nat * T)) n : nth_error (map fst l) n = handle (nth_error l n) :> option nat.
Proof. unfold handle. rewrite nth_error_map. reflexivity. Qed.

Lemma hpos_split h (l : list (nat * T)) n : hpos h l = Some n -> exists l1 v l2, l = l1 ++ (h, v) :: l2 /\ length l1 = n.
Proof.
  intros H. apply pos_some in H as (l1 & [a v] & l2 & -> & Ha & Hn). simpl in Ha. apply Nat.eqb_eq in Ha. subst a.
  exists l1, v, l2. auto.
Qed.

Lemma eq_loop_ok s l2 : forall l1 vs, lnk s (map fst (l1 ++ l2)) -> all_alive s (map fst (l1 ++ l2)) ->
  vals s (map fst l2) (elems l2) -> length vs = length l2 ->
  eq_loop lt (hd_error (map fst l2)) vs s = Ok (s, list_eqv lt vs (elems l2)).
Proof.
  induction l2 as [|[a v] l2 IH]; intros l1 vs KK Al Hv Hlen; destruct vs as [|w vs]; simpl in Hlen; try discriminate; [reflexivity|].
  cbn [eq_loop map hd_error elems fst snd list_eqv]. inversion Hv as [|? ? ? ? Ha Hv']; subst.
  unfold it_deref. rewrite (rd_val_run s a v) by exact Ha. unfold eqvT.
  rewrite <- negb_orb. destruct (lt w v || lt v w) eqn:Ee; [reflexivity|]. cbn [negb andb].
  rewrite map_app in KK, Al. simpl in KK, Al. rewrite (bind_ok _ _ _ _ _ (it_next_ok s _ a _ KK Al)).
  apply (IH (l1 ++ [(a, v)])); auto.
  - rewrite <- app_assoc. simpl. rewrite map_app. exact KK.
  - rewrite <- app_assoc. simpl. rewrite map_app. exact Al.
Qed.

Lemma list_eqv_length xs ys : length xs <> length ys -> list_eqv lt xs ys = false.
Proof.
  revert ys; induction xs as [|x xs IH]; intros [|y ys] H; simpl in *; auto; try congruence. rewrite IH by lia. apply andb_false_r.
Qed.

Definition envrel (e : @venv T) (se : @senv T) : Prop :=
  forall i, match e i, se i with Some s, Some ss => Rel s ss | None, None => True | _, _ => False end.

Lemma envrel_some e se i ss : envrel e se -> se i = Some ss -> exists s, e i = Some s /\ Rel s ss.
Proof. intros H Hi. specialize (H i). rewrite Hi in H. destruct (e i) as [s|]; [eauto|contradiction]. Qed.
Lemma envrel_none e se i : envrel e se -> se i = None -> e i = None.
Proof. intros H Hi. specialize (H i). rewrite Hi in H. destruct (e i) as [s|]; [contradiction|auto]. Qed.
Lemma envrel_upd e se i s ss : envrel e se -> Rel s ss -> envrel (upd e i (Some s)) (upd se i (Some ss)).
Proof. intros H R j. unfold upd. destruct (j =? i); auto. apply H. Qed.
Lemma envrel_upd_l e se i s ss : envrel e se -> se i = Some ss -> Rel s ss -> envrel (upd e i (Some s)) se.
Proof. intros H Hi R j. unfold upd. destruct (Nat.eqb_spec j i); [subst; now rewrite Hi|apply H]. Qed.
Lemma envrel_none_upd e se i : envrel e se -> envrel (upd e i None) (upd se i None).
Proof. intros H j. unfold upd. destruct (j =? i); auto. apply H. Qed.

Lemma on_ok {A} e i s (m : @M T A) s1 x (obs : A -> vobs T) : e i = Some s -> m s = Ok (s1, x) ->
  on e i m obs = Ok (upd e i (Some s1), obs x).
Proof. intros H1 H2. unfold on. now rewrite H1, H2. Qed.
Lemma on_throw {A} e i s (m : @M T A) ex (obs : A -> vobs T) : e i = Some s -> m s = Throw ex ->
  on e i m obs = Ok (e, BExn ex).
Proof. intros H1 H2. unfold on. now rewrite H1, H2. Qed.

Lemma fz_gt {B} (p : T -> bool) (f : B -> T) (q : B -> Prop) l : Forall q l -> (forall x, q x -> p (f x) = false) -> Forall (fun x => p (f x) = false) l.
Proof. intros H H0. eapply Forall_impl; [|exact H]. auto. Qed.

(** What the specification's functions give on a list split by a key. *)
Lemma spec_split k (l1 mid l2 : list (nat * T)) :
  Forall (fun e => ltKT k (snd e) = false /\ ltTK (snd e) k = true) l1 ->
  Forall (fun e => ltKT k (snd e) = true /\ ltTK (snd e) k = false) l2 ->
  Forall (fun e => ltKT k (snd e) = false /\ ltTK (snd e) k = false) mid -> length mid <= 1 ->
  lookup (eqvK ltKT ltTK k) (l1 ++ mid ++ l2) = hd_error mid /\
  existsb (eqvK ltKT ltTK k) (elems (l1 ++ mid ++ l2)) = negb (is_null (handle (hd_error mid))) /\
  pos (eqvK ltKT ltTK k) (elems (l1 ++ mid ++ l2)) = (match mid with [] => None | _ => Some (length l1) end) /\
  lookup (fun x => negb (ltTK x k)) (l1 ++ mid ++ l2) = hd_error (mid ++ l2) /\
  lookup (fun x => ltKT k x) (l1 ++ mid ++ l2) = hd_error l2.
Proof.
  intros H1 H2 H3 Hl.
  assert (A1 : Forall (fun e => eqvK ltKT ltTK k (snd e) = false) l1) by (eapply Forall_impl; [|exact H1]; intros [b w]; simpl; unfold eqvK; intros [-> ->]; reflexivity).
  assert (A2 : Forall (fun e => eqvK ltKT ltTK k (snd e) = false) l2) by (eapply Forall_impl; [|exact H2]; intros [b w]; simpl; unfold eqvK; intros [-> ->]; reflexivity).
  assert (Hm : forall P : T -> bool, forall l : list (nat * T), Forall (fun e => P (snd e) = false) l -> Forall (fun x => P x = false) (elems l)).
  { intros P l H. unfold elems. apply Forall_map. exact H. }
  assert (B1 : find (fun e => negb (ltTK (snd e) k)) l1 = None).
  { apply find_none. eapply Forall_impl; [|exact H1]. intros [b w]; simpl. intros [_ ->]. reflexivity. }
  assert (B2 : find (fun e => ltKT k (snd e)) l1 = None).
  { apply find_none. eapply Forall_impl; [|exact H1]. intros [b w]; simpl. intros [-> _]. reflexivity. }
  assert (B3 : forall l : list (nat * T), Forall (fun e => ltKT k (snd e) = true /\ ltTK (snd e) k = false) l ->
      find (fun e => negb (ltTK (snd e) k)) l = hd_error l /\ find (fun e => ltKT k (snd e)) l = hd_error l).
  { intros l H. destruct H as [|[b w] l [Hx Hy] _]; simpl in *; auto. rewrite Hx, Hy. auto. }
  destruct (B3 _ H2) as [B4 B5].
  assert (Hfa : forall p : nat * T -> bool, find p (l1 ++ mid ++ l2) = match find p l1 with Some x => Some x | None => find p (mid ++ l2) end) by (intros; apply find_app).
  unfold lookup. rewrite !Hfa, B1, B2, (find_none _ l1 A1).
  unfold elems. rewrite !map_app. destruct mid as [|[a v] mid].
  - cbn [app map]. rewrite (find_none _ l2 A2), B4, B5. split; [auto|]. split.
    + rewrite existsb_app, !existsb_none by (apply (Hm (eqvK ltKT ltTK k)); auto). reflexivity.
    + split; auto. apply pos_none. apply Forall_app. split; apply (Hm (eqvK ltKT ltTK k)); auto.
  - destruct mid as [|? ?]; [|simpl in Hl; lia]. inversion H3 as [|? ? [Hx Hy] _]; subst. simpl in Hx, Hy.
    assert (He : eqvK ltKT ltTK k v = true) by (unfold eqvK; now rewrite Hx, Hy).
    cbn [app find snd map fst]. rewrite He, Hx, Hy. cbn [negb hd_error]. split; auto. split; [|split; [|split]]; auto.
    + rewrite existsb_app. cbn [existsb]. rewrite He. now rewrite orb_true_r.
    + rewrite pos_app; auto; [now rewrite map_length|]. apply (Hm (eqvK ltKT ltTK k)); auto.
Qed.

Lemma nth_error_mid {A} (l1 : list A) x l2 : nth_error (l1 ++ x :: l2) (length l1) = Some x.
Proof. rewrite nth_error_app2 by auto. now rewrite Nat.sub_diag. Qed.
Lemma nth_error_mid1 {A} (l1 : list A) x l2 : nth_error (l1 ++ x :: l2) (S (length l1)) = hd_error l2.
Proof. rewrite nth_error_app2 by lia. replace (S (length l1) - length l1) with 1 by lia. destruct l2; reflexivity. Qed.
Lemma lasto_nth {A} (l : list A) : lasto l = nth_error l (length l - 1).
Proof.
  destruct l as [|a l] using rev_ind; [reflexivity|]. rewrite lasto_snoc, app_length. simpl.
  replace (length l + 1 - 1) with (length l) by lia. now rewrite nth_error_mid.
Qed.

Lemma front_alt s : front s = bind (it_next None) rd_val s.
Proof. unfold front, it_next. now rewrite bind_assoc. Qed.
Lemma back_alt s : back s = bind (it_prev None) rd_val s.
Proof. unfold back, it_prev. now rewrite bind_assoc. Qed.

Theorem vstep_sim e se o se' v : envrel e se -> supported o = true -> sstep lt ltKT ltTK se o = Some (se', v) ->
  exists e', vstep lt ltKT ltTK e o = Ok (e', v) /\ envrel e' se'.
Proof.
  intros HR Hsup Hs.
  assert (Getr : forall i ss, se i = Some ss -> exists s, e i = Some s /\ Rel s ss) by (intros; eapply envrel_some; eauto).
  destruct o; cbn [sstep vstep supported] in *.
  - (* New *) destruct (se i) eqn:Ei; [discriminate|]. injection Hs as <- <-. rewrite (envrel_none _ _ _ HR Ei).
    eexists; split; [reflexivity|]. apply envrel_upd; auto. apply empty_rel.
  - (* Copy *) destruct (se i) eqn:Ei; [discriminate|]. destruct (se j) as [ss|] eqn:Ej; [|discriminate]. injection Hs as <- <-.
    rewrite (envrel_none _ _ _ HR Ei). destruct (Getr _ _ Ej) as (s & -> & R).
    destruct (Rel_parts _ _ R) as (t & F & Hi & L & Al & Nd & Vl & Hlen & V).
    rewrite (to_list_ok s _ _ L Al Vl) by (rewrite map_length; auto). cbn [rbind].
    destruct (insert_all_rel (elems (snd ss)) empty_st 0 [] empty_rel) as (s1 & E1 & R1). { apply (v_sorted _ _ _ V). }
    rewrite E1. cbn [rbind]. eexists; split; [reflexivity|]. apply envrel_upd; auto.
  - (* Move *) destruct (se i) eqn:Ei; [discriminate|]. destruct (se j) as [ss|] eqn:Ej; [|discriminate]. injection Hs as <- <-.
    rewrite (envrel_none _ _ _ HR Ei). destruct (Getr _ _ Ej) as (s & -> & R).
    eexists; split; [reflexivity|]. apply envrel_upd; auto. apply envrel_upd; auto. apply empty_rel.
  - (* Assign *) destruct (Nat.eqb_spec i j); [discriminate|]. destruct (se i) as [sd|] eqn:Ei; [|discriminate].
    destruct (se j) as [ss|] eqn:Ej; [|discriminate]. injection Hs as <- <-.
    destruct (Getr _ _ Ei) as (s & -> & R). destruct (Getr _ _ Ej) as (s' & Es' & R').
    destruct (clear_rel _ _ R) as (s1 & E1 & R1 & _). rewrite E1. cbn [rbind]. rewrite upd_neq, Es' by auto.
    destruct (Rel_parts _ _ R') as (t & F & Hi & L & Al & Nd & Vl & Hlen & V).
    rewrite (to_list_ok s' _ _ L Al Vl) by (rewrite map_length; auto). cbn [rbind].
    destruct (insert_all_rel (elems (snd ss)) s1 (fst sd) [] R1) as (s2 & E2 & R2). { apply (v_sorted _ _ _ V). }
    rewrite E2. cbn [rbind]. eexists; split; [reflexivity|]. apply envrel_upd; auto.
  - (* MoveAssign *) destruct (Nat.eqb_spec i j).
    + subst j. destruct (se i) as [sd|] eqn:Ei; [|discriminate]. injection Hs as <- <-.
      destruct (Getr _ _ Ei) as (s & -> & R). destruct (clear_rel _ _ R) as (s1 & E1 & R1 & _). rewrite E1. cbn [rbind]. rewrite upd_eq.
      eexists; split; [reflexivity|]. apply envrel_upd; auto. apply empty_rel.
    + destruct (se i) as [sd|] eqn:Ei; [|discriminate]. destruct (se j) as [ss|] eqn:Ej; [|discriminate]. injection Hs as <- <-.
      destruct (Getr _ _ Ei) as (s & -> & R). destruct (Getr _ _ Ej) as (s' & Es' & R').
      destruct (clear_rel _ _ R) as (s1 & E1 & R1 & _). rewrite E1. cbn [rbind]. rewrite upd_neq, Es' by auto.
      eexists; split; [reflexivity|]. apply envrel_upd; auto. apply envrel_upd; auto. apply empty_rel.
  - (* Destroy *) destruct (se i) as [sd|] eqn:Ei; [|discriminate]. injection Hs as <- <-.
    destruct (Getr _ _ Ei) as (s & -> & R). destruct (clear_rel _ _ R) as (s1 & E1 & R1 & _). rewrite E1. cbn [rbind].
    eexists; split; [reflexivity|]. now apply envrel_none_upd.
  - (* Insert *) destruct (se i) as [ss|] eqn:Ei; [|discriminate]. destruct (Getr _ _ Ei) as (s & Es & R).
    pose proof (insert_rel s ss v0 R) as H. destruct (sinsert lt false v0 ss) as [ss1 r]. injection Hs as <- <-.
    destruct H as (s1 & E1 & R1). rewrite (on_ok _ _ _ _ _ _ _ Es E1). eexists; split; [reflexivity|]. now apply envrel_upd.
  - (* Emplace *) destruct (se i) as [ss|] eqn:Ei; [|discriminate]. destruct (Getr _ _ Ei) as (s & Es & R).
    pose proof (emplace_rel s ss v0 R) as H. destruct (sinsert lt true v0 ss) as [ss1 r]. injection Hs as <- <-.
    destruct H as (s1 & E1 & R1). rewrite (on_ok _ _ _ _ _ _ _ Es E1). eexists; split; [reflexivity|]. now apply envrel_upd.
  - (* EraseKey *) destruct (se i) as [[h l]|] eqn:Ei; [|discriminate]. destruct (Getr _ _ Ei) as (s & Es & R).
    destruct (Rel_parts _ _ R) as (t & F & Hi & L & Al & Nd & Vl & Hlen & V). cbn [snd] in *.
    destruct (search_ok _ _ _ _ _ (keyp_key k) V) as (l1 & mid & l2 & El & H1 & H2 & H3 & H4 & S1 & S2 & S3). subst l.
    destruct (spec_split k l1 mid l2 H1 H2 H3 H4) as (P1 & _). rewrite P1 in Hs.
    destruct mid as [|[a w] mid]; cbn [hd_error handle option_map fst] in *.
    + injection Hs as <- <-.
      assert (E1 : erase_key (ltKT k) (fun x => ltTK x k) s = Ok (s, 0)) by (unfold erase_key; rewrite (bind_ok _ _ _ _ _ S1); reflexivity).
      rewrite (on_ok _ _ _ _ _ _ _ Es E1). eexists; split; [reflexivity|]. apply envrel_upd; auto.
    + destruct mid; [|simpl in H4; lia]. injection Hs as <- <-. destruct (erase_rel _ _ _ _ _ _ R) as (s1 & E1 & R1).
      assert (E2 : erase_key (ltKT k) (fun x => ltTK x k) s = Ok (s1, 1)).
      { unfold erase_key. rewrite (bind_ok _ _ _ _ _ S1). cbn [is_null]. rewrite (bind_ok _ _ _ _ _ E1). reflexivity. }
      rewrite (on_ok _ _ _ _ _ _ _ Es E2). eexists; split; [reflexivity|]. apply envrel_upd; auto.
  - (* EraseIt *) destruct (se i) as [[h' l]|] eqn:Ei; [|discriminate]. destruct (Getr _ _ Ei) as (s & Es & R). cbn [snd] in *.
    destruct (hpos h l) as [n|] eqn:Eh; [|discriminate]. injection Hs as <- <-.
    apply hpos_split in Eh as (l1 & w & l2 & -> & _). destruct (erase_rel _ _ _ _ _ _ R) as (s1 & E1 & R1).
    rewrite (on_ok _ _ _ _ _ _ _ Es E1). eexists; split; [reflexivity|]. apply envrel_upd; auto.
  - (* Clear *) destruct (se i) as [ss|] eqn:Ei; [|discriminate]. injection Hs as <- <-. destruct (Getr _ _ Ei) as (s & Es & R).
    destruct (clear_rel _ _ R) as (s1 & E1 & R1 & _). rewrite (on_ok _ _ _ _ _ _ _ Es E1). eexists; split; [reflexivity|]. apply envrel_upd; auto.
  - (* Size *) destruct (se i) as [ss|] eqn:Ei; [|discriminate]. injection Hs as <- <-. destruct (Getr _ _ Ei) as (s & Es & R).
    destruct (Rel_parts _ _ R) as (t & F & Hi & L & Al & Nd & Vl & Hlen & V).
    rewrite (on_ok _ _ _ _ _ _ _ Es (size_ok s t F)). eexists; split; [|eapply envrel_upd_l; eauto]. now rewrite Hi, map_length.
  - (* Empty *) destruct (se i) as [ss|] eqn:Ei; [|discriminate]. injection Hs as <- <-. destruct (Getr _ _ Ei) as (s & Es & R).
    destruct (Rel_parts _ _ R) as (t & F & Hi & L & Al & Nd & Vl & Hlen & V).
    rewrite (on_ok _ _ _ _ _ _ _ Es (empty_ok s t F)). eexists; split; [|eapply envrel_upd_l; eauto]. now rewrite Hi, map_length.
  - (* Contains *) destruct (se i) as [ss|] eqn:Ei; [|discriminate]. injection Hs as <- <-. destruct (Getr _ _ Ei) as (s & Es & R).
    destruct (Rel_parts _ _ R) as (t & F & Hi & L & Al & Nd & Vl & Hlen & V).
    destruct (search_ok _ _ _ _ _ (keyp_key k) V) as (l1 & mid & l2 & El & H1 & H2 & H3 & H4 & S1 & S2 & S3).
    destruct (spec_split k l1 mid l2 H1 H2 H3 H4) as (P1 & P2 & P3 & P4 & P5).
    rewrite (on_ok _ _ _ _ _ _ _ Es S1). eexists; split; [|eapply envrel_upd_l; eauto]. now rewrite El, P2.
  - (* Find *) destruct (se i) as [ss|] eqn:Ei; [|discriminate]. injection Hs as <- <-. destruct (Getr _ _ Ei) as (s & Es & R).
    destruct (Rel_parts _ _ R) as (t & F & Hi & L & Al & Nd & Vl & Hlen & V).
    destruct (search_ok _ _ _ _ _ (keyp_key k) V) as (l1 & mid & l2 & El & H1 & H2 & H3 & H4 & S1 & S2 & S3).
    destruct (spec_split k l1 mid l2 H1 H2 H3 H4) as (P1 & P2 & P3 & P4 & P5).
    rewrite (on_ok _ _ _ _ _ _ _ Es S1). eexists; split; [|eapply envrel_upd_l; eauto]. now rewrite El, P1.
  - (* Find2 *) destruct (se i) as [ss|] eqn:Ei; [|discriminate]. injection Hs as <- <-. destruct (Getr _ _ Ei) as (s & Es & R).
    destruct (Rel_parts _ _ R) as (t & F & Hi & L & Al & Nd & Vl & Hlen & V).
    destruct (search_ok _ _ _ _ _ (keyp_key k) V) as (l1 & mid & l2 & El & H1 & H2 & H3 & H4 & S1 & S2 & S3).
    destruct (spec_split k l1 mid l2 H1 H2 H3 H4) as (P1 & P2 & P3 & P4 & P5).
    rewrite (on_ok _ _ _ _ _ _ _ Es S2). eexists; split; [|eapply envrel_upd_l; eauto]. rewrite El, P1, P3.
    destruct mid as [|[a w] mid]; reflexivity.
  - (* FindByIndex *) destruct (se i) as [ss|] eqn:Ei; [|discriminate]. injection Hs as <- <-. destruct (Getr _ _ Ei) as (s & Es & R).
    destruct (Rel_parts _ _ R) as (t & F & Hi & L & Al & Nd & Vl & Hlen & V).
    rewrite (on_ok _ _ _ _ _ _ _ Es (find_by_index_ok s t n F)). eexists; split; [|eapply envrel_upd_l; eauto].
    now rewrite Hi, nth_handle.
  - (* Lower *) destruct (se i) as [ss|] eqn:Ei; [|discriminate]. injection Hs as <- <-. destruct (Getr _ _ Ei) as (s & Es & R).
    destruct (Rel_parts _ _ R) as (t & F & Hi & L & Al & Nd & Vl & Hlen & V).
    destruct (search_ok _ _ _ _ _ (keyp_key k) V) as (l1 & mid & l2 & El & H1 & H2 & H3 & H4 & S1 & S2 & S3).
    destruct (spec_split k l1 mid l2 H1 H2 H3 H4) as (P1 & P2 & P3 & P4 & P5).
    assert (E1 : lower_bound (ltKT k) (fun x => ltTK x k) s = Ok (s, handle (hd_error (mid ++ l2)))).
    { unfold lower_bound. rewrite (bind_ok _ _ _ _ _ S3). destruct mid as [|[a w] mid]; reflexivity. }
    rewrite (on_ok _ _ _ _ _ _ _ Es E1). eexists; split; [|eapply envrel_upd_l; eauto]. now rewrite El, P4.
  - (* Upper *) destruct (se i) as [ss|] eqn:Ei; [|discriminate]. injection Hs as <- <-. destruct (Getr _ _ Ei) as (s & Es & R).
    destruct (Rel_parts _ _ R) as (t & F & Hi & L & Al & Nd & Vl & Hlen & V).
    destruct (search_ok _ _ _ _ _ (keyp_key k) V) as (l1 & mid & l2 & El & H1 & H2 & H3 & H4 & S1 & S2 & S3).
    destruct (spec_split k l1 mid l2 H1 H2 H3 H4) as (P1 & P2 & P3 & P4 & P5).
    assert (E1 : upper_bound (ltKT k) (fun x => ltTK x k) s = Ok (s, handle (hd_error l2))).
    { unfold upper_bound. rewrite (bind_ok _ _ _ _ _ S3). destruct mid as [|[a w] mid]; [reflexivity|]. destruct mid; [|simpl in H4; lia].
      cbn [fst snd]. rewrite El, !map_app in L, Al. cbn [map app fst] in L, Al. rewrite (it_next_ok s _ a _ L Al). now rewrite hd_handle. }
    rewrite (on_ok _ _ _ _ _ _ _ Es E1). eexists; split; [|eapply envrel_upd_l; eauto]. now rewrite El, P5.
  - (* Index *) destruct (se i) as [ss|] eqn:Ei; [|discriminate]. destruct (Getr _ _ Ei) as (s & Es & R).
    destruct (Rel_parts _ _ R) as (t & F & Hi & L & Al & Nd & Vl & Hlen & V).
    unfold elems in Hs. rewrite nth_error_map in Hs. destruct (nth_error (snd ss) n) as [[a w]|] eqn:En; [|discriminate]. injection Hs as <- <-.
    assert (E1 : index n s = Ok (s, w)).
    { unfold index. rewrite (bind_ok _ _ _ _ _ (find_by_index_ok s t n F)). rewrite Hi, nth_handle, En. cbn [handle option_map fst].
      unfold rd_val. rewrite (v_val _ _ _ V a w); auto. now apply nth_error_In in En. }
    rewrite (on_ok _ _ _ _ _ _ _ Es E1). eexists; split; [|eapply envrel_upd_l; eauto]. reflexivity.
  - (* At *) destruct (se i) as [ss|] eqn:Ei; [|discriminate]. injection Hs as <- <-. destruct (Getr _ _ Ei) as (s & Es & R).
    destruct (Rel_parts _ _ R) as (t & F & Hi & L & Al & Nd & Vl & Hlen & V).
    assert (E0 : at_ n s = if n <? length (snd ss) then index n s else Throw OutOfRange).
    { unfold at_. rewrite (bind_ok _ _ _ _ _ (size_ok s t F)), Hi, map_length. now destruct (n <? length (snd ss)). }
    unfold elems. rewrite nth_error_map. destruct (nth_error (snd ss) n) as [[a w]|] eqn:En; cbn [option_map snd].
    + assert (Hn : n < length (snd ss)) by (apply nth_error_Some; congruence). apply Nat.ltb_lt in Hn. rewrite Hn in E0.
      assert (E1 : index n s = Ok (s, w)).
      { unfold index. rewrite (bind_ok _ _ _ _ _ (find_by_index_ok s t n F)). rewrite Hi, nth_handle, En. cbn [handle option_map fst].
        unfold rd_val. rewrite (v_val _ _ _ V a w); auto. now apply nth_error_In in En. }
      rewrite E1 in E0. rewrite (on_ok _ _ _ _ _ _ _ Es E0). eexists; split; [|eapply envrel_upd_l; eauto]. reflexivity.
    + apply nth_error_None in En. apply Nat.ltb_ge in En. rewrite En in E0. rewrite (on_throw _ _ _ _ _ _ Es E0). exists e. auto.
  - (* IndexOfIt *) destruct (se i) as [ss|] eqn:Ei; [|discriminate]. destruct (Getr _ _ Ei) as (s & Es & R).
    destruct (Rel_parts _ _ R) as (t & F & Hi & L & Al & Nd & Vl & Hlen & V).
    destruct (hpos h (snd ss)) as [n|] eqn:Eh; [|discriminate]. injection Hs as <- <-.
    apply hpos_split in Eh as (l1 & w & l2 & El & Hn).
    assert (Hin : In h (ino t)). { rewrite Hi, El, map_app. apply in_or_app. right. now left. }
    destruct (locate _ _ Hin) as (c & lf & r & C & ->).
    assert (F' : foc s (N c lf h r) C) by now apply (proj2 (foc_plug _ _ _)).
    rewrite (on_ok _ _ _ _ _ _ _ Es (index_of_ok s c lf h r C F')). eexists; split; [|eapply envrel_upd_l; eauto].
    assert (He : (cpre C ++ ino lf) ++ h :: ino r ++ cpost C = map fst l1 ++ h :: map fst l2).
    { rewrite ino_plug in Hi. cbn [ino] in Hi. rewrite El, map_app in Hi. cbn [map fst] in Hi. rewrite <- Hi, <- ?app_assoc. simpl. rewrite <- ?app_assoc. reflexivity. }
    assert (Hnd' : NoDup ((cpre C ++ ino lf) ++ h :: ino r ++ cpost C)).
    { rewrite He. rewrite El, map_app in Nd. exact Nd. }
    apply nodup_split in He as [-> _]; auto. now rewrite map_length, Hn.
  - (* IndexOfKey *) destruct (se i) as [ss|] eqn:Ei; [|discriminate]. injection Hs as <- <-. destruct (Getr _ _ Ei) as (s & Es & R).
    destruct (Rel_parts _ _ R) as (t & F & Hi & L & Al & Nd & Vl & Hlen & V).
    destruct (search_ok _ _ _ _ _ (keyp_key k) V) as (l1 & mid & l2 & El & H1 & H2 & H3 & H4 & S1 & S2 & S3).
    destruct (spec_split k l1 mid l2 H1 H2 H3 H4) as (P1 & P2 & P3 & P4 & P5). rewrite El, P3.
    destruct mid as [|[a w] mid].
    + assert (E1 : index_of_key (ltKT k) (fun x => ltTK x k) s = Throw OutOfRange) by (unfold index_of_key; rewrite (bind_ok _ _ _ _ _ S2); reflexivity).
      rewrite (on_throw _ _ _ _ _ _ Es E1). exists e. auto.
    + assert (E1 : index_of_key (ltKT k) (fun x => ltTK x k) s = Ok (s, length l1)) by (unfold index_of_key; rewrite (bind_ok _ _ _ _ _ S2); reflexivity).
      rewrite (on_ok _ _ _ _ _ _ _ Es E1). eexists; split; [|eapply envrel_upd_l; eauto]. reflexivity.
  - (* Front *) destruct (se i) as [ss|] eqn:Ei; [|discriminate]. destruct (Getr _ _ Ei) as (s & Es & R).
    destruct (Rel_parts _ _ R) as (t & F & Hi & L & Al & Nd & Vl & Hlen & V).
    destruct (snd ss) as [|[a w] l] eqn:El; [discriminate|]. injection Hs as <- <-.
    assert (E1 : front s = Ok (s, w)).
    { rewrite front_alt, (bind_ok _ _ _ _ _ (it_first_ok s _ L)). cbn [map fst hd_error]. unfold rd_val. rewrite (v_val _ _ _ V a w) by now left. reflexivity. }
    rewrite (on_ok _ _ _ _ _ _ _ Es E1). eexists; split; [|eapply envrel_upd_l; eauto]. reflexivity.
  - (* Back *) destruct (se i) as [ss|] eqn:Ei; [|discriminate]. destruct (Getr _ _ Ei) as (s & Es & R).
    destruct (Rel_parts _ _ R) as (t & F & Hi & L & Al & Nd & Vl & Hlen & V).
    destruct (snd ss) as [|[a w] l _] eqn:El using rev_ind; [discriminate|].
    unfold elems in Hs. rewrite map_app, rev_app_distr in Hs. injection Hs as <- <-.
    assert (E1 : back s = Ok (s, w)).
    { rewrite back_alt, (bind_ok _ _ _ _ _ (it_last_ok s _ L)). rewrite map_app. cbn [map fst]. rewrite lasto_snoc. unfold rd_val. rewrite (v_val _ _ _ V a w) by (apply in_or_app; right; now left). reflexivity. }
    rewrite (on_ok _ _ _ _ _ _ _ Es E1). eexists; split; [|eapply envrel_upd_l; eauto]. reflexivity.
  - (* Iter *) destruct (se i) as [ss|] eqn:Ei; [|discriminate]. injection Hs as <- <-. destruct (Getr _ _ Ei) as (s & Es & R).
    destruct (Rel_parts _ _ R) as (t & F & Hi & L & Al & Nd & Vl & Hlen & V).
    assert (Hlen' : length (map fst (snd ss)) <= fresh s) by now rewrite map_length.
    rewrite (on_ok _ _ _ _ _ _ _ Es (to_list_ok s _ _ L Al Vl Hlen')). eexists; split; [|eapply envrel_upd_l; eauto]. reflexivity.
  - (* RIter *) destruct (se i) as [ss|] eqn:Ei; [|discriminate]. injection Hs as <- <-. destruct (Getr _ _ Ei) as (s & Es & R).
    destruct (Rel_parts _ _ R) as (t & F & Hi & L & Al & Nd & Vl & Hlen & V).
    assert (Hlen' : length (map fst (snd ss)) <= fresh s) by now rewrite map_length.
    rewrite (on_ok _ _ _ _ _ _ _ Es (to_rlist_ok s _ _ L Al Vl Hlen')). eexists; split; [|eapply envrel_upd_l; eauto]. reflexivity.
  - (* Deref *) destruct (se i) as [ss|] eqn:Ei; [|discriminate]. destruct (Getr _ _ Ei) as (s & Es & R).
    destruct (Rel_parts _ _ R) as (t & F & Hi & L & Al & Nd & Vl & Hlen & V).
    destruct (hpos h (snd ss)) as [n|] eqn:Eh; [|discriminate]. apply hpos_split in Eh as (l1 & w & l2 & El & Hn).
    unfold elems in Hs. rewrite nth_error_map, El, <- Hn, nth_error_mid in Hs. injection Hs as <- <-.
    assert (E1 : it_deref (Some h) s = Ok (s, w)).
    { unfold it_deref, rd_val. rewrite (v_val _ _ _ V h w); auto. rewrite El. apply in_or_app. right. now left. }
    rewrite (on_ok _ _ _ _ _ _ _ Es E1). eexists; split; [|eapply envrel_upd_l; eauto]. reflexivity.
  - (* Next *) destruct (se i) as [ss|] eqn:Ei; [|discriminate]. destruct (Getr _ _ Ei) as (s & Es & R).
    destruct (Rel_parts _ _ R) as (t & F & Hi & L & Al & Nd & Vl & Hlen & V).
    destruct (hpos h (snd ss)) as [n|] eqn:Eh; [|discriminate]. apply hpos_split in Eh as (l1 & w & l2 & El & Hn).
    rewrite El, <- Hn, nth_error_mid1 in Hs. injection Hs as <- <-.
    rewrite El, map_app in L, Al. cbn [map fst] in L, Al.
    rewrite (on_ok _ _ _ _ _ _ _ Es (it_next_ok s _ h _ L Al)). eexists; split; [|eapply envrel_upd_l; eauto]. now rewrite hd_handle.
  - (* Prev *) destruct h as [h|].
    + destruct (se i) as [ss|] eqn:Ei; [|discriminate]. destruct (Getr _ _ Ei) as (s & Es & R).
      destruct (Rel_parts _ _ R) as (t & F & Hi & L & Al & Nd & Vl & Hlen & V).
      destruct (hpos h (snd ss)) as [n|] eqn:Eh; [|discriminate]. apply hpos_split in Eh as (l1 & w & l2 & El & Hn).
      rewrite El, map_app in L, Al. cbn [map fst] in L, Al.
      rewrite (on_ok _ _ _ _ _ _ _ Es (it_prev_ok s _ h _ L Al)).
      assert (Hse : se' = se /\ v = BIter (lasto (map fst l1))).
      { destruct l1 as [|x l1] using rev_ind.
        - simpl in Hn. subst n. injection Hs as <- <-. auto.
        - rewrite app_length in Hn. simpl in Hn. destruct n as [|n]; [lia|]. rewrite El in Hs. rewrite <- app_assoc in Hs.
          replace n with (length l1) in Hs by lia. cbn [app] in Hs. rewrite nth_error_mid in Hs. injection Hs as <- <-.
          rewrite map_app. cbn [map]. rewrite lasto_snoc. auto. }
      destruct Hse as [-> ->]. eexists; split; [reflexivity|]. eapply envrel_upd_l; eauto.
    + destruct (se i) as [ss|] eqn:Ei; [|discriminate]. injection Hs as <- <-. destruct (Getr _ _ Ei) as (s & Es & R).
      destruct (Rel_parts _ _ R) as (t & F & Hi & L & Al & Nd & Vl & Hlen & V).
      rewrite (on_ok _ _ _ _ _ _ _ Es (it_last_ok s _ L)). eexists; split; [|eapply envrel_upd_l; eauto].
      now rewrite lasto_nth, nth_handle, map_length.
  - (* Eq *) destruct (se i) as [sa|] eqn:Ei; [|discriminate]. destruct (se j) as [sb|] eqn:Ej; [|discriminate]. injection Hs as <- <-.
    destruct (Getr _ _ Ei) as (a & Ea & Ra). destruct (Getr _ _ Ej) as (b & Eb & Rb). rewrite Eb.
    destruct (Rel_parts _ _ Ra) as (ta & Fa & Hia & La & Ala & Nda & Vla & Hlena & Va).
    destruct (Rel_parts _ _ Rb) as (tb & Fb & Hib & Lb & Alb & Ndb & Vlb & Hlenb & Vb).
    rewrite (size_ok b tb Fb). cbn [rbind].
    assert (Hlen' : length (map fst (snd sb)) <= fresh b) by now rewrite map_length.
    rewrite (to_list_ok b _ _ Lb Alb Vlb Hlen'). cbn [rbind].
    assert (E1 : equal lt (length (ino tb)) (elems (snd sb)) a = Ok (a, list_eqv lt (elems (snd sb)) (elems (snd sa)))).
    { unfold equal. rewrite (bind_ok _ _ _ _ _ (size_ok a ta Fa)). rewrite Hia, Hib, !map_length.
      destruct (Nat.eqb_spec (length (snd sa)) (length (snd sb))) as [Hq|Hq].
      - rewrite (bind_ok _ _ _ _ _ (it_first_ok a _ La)). apply (eq_loop_ok a (snd sa) []); auto. unfold elems. now rewrite map_length.
      - unfold ret. rewrite list_eqv_length; auto. unfold elems. rewrite !map_length. auto. }
    rewrite (on_ok _ _ _ _ _ _ _ Ea E1). eexists; split; [reflexivity|]. eapply envrel_upd_l; eauto.
Qed.

Theorem vrun_sim os : forall e se se' vs, envrel e se -> srun lt ltKT ltTK se os = Some (se', vs, true) ->
  exists e', vrun lt ltKT ltTK e os = Ok (e', vs) /\ envrel e' se'.
Proof.
  induction os as [|o os IH]; intros e se se' vs HR Hs; cbn [srun vrun] in *.
  - injection Hs as <- <-. exists e. auto.
  - destruct (sstep lt ltKT ltTK se o) as [[se1 v]|] eqn:E1; [|discriminate].
    destruct (srun lt ltKT ltTK se1 os) as [[[se2 vs'] b]|] eqn:E2; [|discriminate]. injection Hs as <- <- Hb.
    apply andb_true_iff in Hb as [Hsup ->]. destruct (vstep_sim _ _ _ _ _ HR Hsup E1) as (e1 & -> & R1).
    cbn [rbind]. destruct (IH _ _ _ _ R1 E2) as (e2 & -> & R2). exists e2. auto.
Qed.

Lemma envrel_init : envrel vinit sinit.
Proof. intros i. exact I. Qed.
End Proofs.
