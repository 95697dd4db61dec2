(** The observers of a foreign_set and of its groups know what it contains. *)
From Verif Require Import Common VSetSpec ObsSetModel ObsSetSpec ObsSetProofs ObsThrowModel ObsThrowProps GroupObsModel GroupObsSpec.
From Coq Require Import Sorting.Sorted Sorting.Permutation ZifyBool ZifyNat.

Section Proofs.
Context {T : Type} (pk fk : T -> Z).
Notation group := (group (T := T)).
Notation grouping := (grouping pk fk).
Notation same := (same pk fk).
Notation call := (call (T := T)).

(** Positions of groups *)
Definition keyed (gs : list group) (ks : list Z) : Prop := Forall2 (fun g k => group_key fk (fst g) = Ok k) gs ks.
Lemma keyed_grouping gs zs : map fst gs = grouping zs -> keyed gs (keys fk zs).
Proof.
  rewrite grouping_grp. assert (H : forall k, In k (keys fk zs) -> group_key fk (grp pk fk zs k) = Ok k) by (intros; now apply grp_key).
  revert gs. induction (keys fk zs) as [|k ks IH]; intros [|[g os] gs]; cbn; try discriminate; [constructor|]. intros [= -> E]. constructor; [apply H; cbn; auto|].
  apply IH; auto. intros. apply H. cbn. auto.
Qed.

Lemma find_pos_ok k gs ks : keyed gs ks -> exists o, find_pos fk k gs = Ok o /\
  find_group fk k (map fst gs) = Ok (match o with Some n => option_map fst (nth_error gs n) | None => None end) /\
  match o with
  | Some n => exists a g os b, gs = a ++ (g, os) :: b /\ length a = n /\ group_key fk g = Ok k
  | None => ~ In k ks
  end.
Proof.
  induction 1 as [|[g os] k' gs ks G K IH]; [exists None; cbn; auto|]. destruct IH as (o & E1 & E2 & E3). cbn in G.
  exists (if Z.eqb k' k then Some 0 else option_map S o). cbn [find_pos map fst find_group]. rewrite G, E1, E2. cbn [rbind]. split; auto.
  destruct (Z.eqb_spec k' k) as [->|N].
  - split; auto. exists [], g, os, gs. auto.
  - destruct o as [n|]; cbn [option_map].
    + split; auto. destruct E3 as (a & h & o & b & -> & L & H). exists ((g, os) :: a), h, o, b. cbn. auto.
    + split; auto. intros [->|I]; auto.
Qed.
Lemma nth_split_eq {A} (a : list A) x b : nth_error (a ++ x :: b) (length a) = Some x.
Proof. induction a; auto. Qed.
Lemma set_split {A} (a : list A) x y b : set_nth (a ++ x :: b) (length a) y = a ++ y :: b.
Proof. induction a as [|z a IH]; cbn; auto. now rewrite IH. Qed.
Lemma remove_split {A} (a : list A) x b : remove_nth (length a) (a ++ x :: b) = a ++ b.
Proof. induction a as [|z a IH]; cbn; auto. now rewrite IH. Qed.

Lemma set_absent k g' gs ks : keyed gs ks -> ~ In k ks -> set_group fk k g' (map fst gs) = Ok (map fst gs).
Proof.
  induction 1 as [|[g os] k' gs ks G K IH]; intros N; cbn [map fst set_group]; auto. cbn in G. rewrite G, IH by (cbn in N; tauto). cbn [rbind].
  destruct (Z.eqb_spec k' k) as [->|]; auto. destruct N. cbn. auto.
Qed.
Lemma erase_absent k gs ks : keyed gs ks -> ~ In k ks -> erase_group fk k (map fst gs) = Ok (map fst gs).
Proof.
  induction 1 as [|[g os] k' gs ks G K IH]; intros N; cbn [map fst erase_group]; auto. cbn in G. rewrite G, IH by (cbn in N; tauto). cbn [rbind].
  destruct (Z.eqb_spec k' k) as [->|]; auto. destruct N. cbn. auto.
Qed.
Lemma inc_tail k ks : inc (k :: ks) -> inc ks /\ ~ In k ks.
Proof. unfold inc. intros H. inversion H; subst. split; auto. intros I. rewrite Forall_forall in H3. specialize (H3 _ I). lia. Qed.
Lemma set_pos k a g os b g' : forall ks, keyed (a ++ (g, os) :: b) ks -> inc ks -> group_key fk g = Ok k ->
  set_group fk k g' (map fst (a ++ (g, os) :: b)) = Ok (map fst (a ++ (g', os) :: b)).
Proof.
  induction a as [|[h oh] a IH]; intros ks K I G; cbn [app] in *; inversion K as [|x y l l' K1 K2]; subst; cbn [map fst set_group] in *; apply inc_tail in I as (I1 & I2).
  - rewrite G in *. injection K1 as <-. rewrite (set_absent _ _ _ _ K2 I2). cbn [rbind]. now rewrite Z.eqb_refl.
  - rewrite K1, (IH _ K2 I1 G). cbn [rbind]. destruct (Z.eqb_spec y k) as [->|]; auto. exfalso. apply I2. clear - K2 G. revert l' K2.
    induction a as [|z a IH]; intros l' K2; inversion K2; subst; cbn in *; [left; congruence|right; auto].
Qed.
Lemma erase_pos k a g os b : forall ks, keyed (a ++ (g, os) :: b) ks -> inc ks -> group_key fk g = Ok k ->
  erase_group fk k (map fst (a ++ (g, os) :: b)) = Ok (map fst (a ++ b)).
Proof.
  induction a as [|[h oh] a IH]; intros ks K I G; cbn [app] in *; inversion K as [|x y l l' K1 K2]; subst; cbn [map fst erase_group] in *; apply inc_tail in I as (I1 & I2).
  - rewrite G in *. injection K1 as <-. rewrite (erase_absent _ _ _ K2 I2). cbn [rbind]. now rewrite Z.eqb_refl.
  - rewrite K1, (IH _ K2 I1 G). cbn [rbind]. destruct (Z.eqb_spec y k) as [->|]; auto. exfalso. apply I2. clear - K2 G. revert l' K2.
    induction a as [|z a IH]; intros l' K2; inversion K2; subst; cbn in *; [left; congruence|right; auto].
Qed.
Lemma insert_gr_ok g os gs gs' : insert_gr fk (g, os) gs = Ok gs' ->
  insert_group fk g (map fst gs) = Ok (map fst gs') /\ exists a b, gs = a ++ b /\ gs' = a ++ (g, os) :: b.
Proof.
  revert gs'. induction gs as [|[h oh] gs IH]; intros gs'; cbn [insert_gr insert_group map fst]; destruct (group_key fk g) as [k'| |]; cbn [rbind]; try discriminate.
  - intros [= <-]. split; auto. exists [], []. auto.
  - destruct (group_key fk h) as [k| |]; cbn [rbind]; try discriminate. destruct (k' <? k)%Z.
    + intros [= <-]. split; auto. exists [], ((h, oh) :: gs). auto.
    + destruct (insert_gr fk (g, os) gs) as [r| |] eqn:E; cbn [rbind]; try discriminate. intros [= <-]. destruct (IH r eq_refl) as (H1 & a & b & -> & ->).
      rewrite H1. cbn [rbind]. split; auto. exists ((h, oh) :: a), b. auto.
Qed.

(** Calls *)
Lemma tell_in c os : forall (l : nat -> list call), NoDup os -> forall i, tell c os l i = if existsb (Nat.eqb i) os then c :: l i else l i.
Proof.
  unfold tell. induction os as [|j os IH]; intros l N i; cbn [fold_left existsb]; auto. inversion N; subst. rewrite IH by auto. unfold upd.
  destruct (Nat.eqb_spec i j) as [->|]; cbn [orb]; auto. assert (existsb (Nat.eqb j) os = false) as ->; auto.
  destruct (existsb (Nat.eqb j) os) eqn:E; auto. apply existsb_exists in E as (x & X & E). apply Nat.eqb_eq in E. subst. contradiction.
Qed.
Lemma tell_watch_in c os : forall (l : nat -> list (gcall (T := T))), NoDup os -> forall i, tell_watch c os l i = if existsb (Nat.eqb i) os then c :: l i else l i.
Proof.
  unfold tell_watch. induction os as [|j os IH]; intros l N i; cbn [fold_left existsb]; auto. inversion N; subst. rewrite IH by auto. unfold upd.
  destruct (Nat.eqb_spec i j) as [->|]; cbn [orb]; auto. assert (existsb (Nat.eqb j) os = false) as ->; auto.
  destruct (existsb (Nat.eqb j) os) eqn:E; auto. apply existsb_exists in E as (x & X & E). apply Nat.eqb_eq in E. subst. contradiction.
Qed.
Lemma mem_true i os : existsb (Nat.eqb i) os = true <-> In i os.
Proof. rewrite existsb_exists. split; [intros (x & X & E); apply Nat.eqb_eq in E; now subst|intros H; exists i; split; auto; apply Nat.eqb_refl]. Qed.
Lemma mem_false i os : existsb (Nat.eqb i) os = false <-> ~ In i os.
Proof. rewrite <- mem_true. destruct (existsb _ _); intuition congruence. Qed.
Lemma tell_yes (c : call) os l i : NoDup os -> In i os -> tell c os l i = c :: l i.
Proof. intros N I. rewrite tell_in by auto. apply mem_true in I. now rewrite I. Qed.
Lemma tell_no (c : call) os l i : NoDup os -> ~ In i os -> tell c os l i = l i.
Proof. intros N I. rewrite tell_in by auto. apply mem_false in I. now rewrite I. Qed.
Lemma tell_watch_yes c os l i : NoDup os -> In i os -> tell_watch (T := T) c os l i = c :: l i.
Proof. intros N I. rewrite tell_watch_in by auto. apply mem_true in I. now rewrite I. Qed.

Definition observers (gs : list group) : list nat := concat (map snd gs).
Lemma observers_split a g os b : observers (a ++ (g, os) :: b) = observers a ++ os ++ observers b.
Proof. unfold observers. rewrite map_app, concat_app. reflexivity. Qed.
Lemma observers_app a b : observers (a ++ b) = observers a ++ observers b.
Proof. unfold observers. now rewrite map_app, concat_app. Qed.
Lemma observers_in gs g os i : In (g, os) gs -> In i os -> In i (observers gs).
Proof. intros G I. unfold observers. apply in_concat. exists os. split; auto. apply in_map_iff. exists (g, os). auto. Qed.
Lemma nodup_app_inv {A} (a b : list A) : NoDup (a ++ b) -> NoDup a /\ NoDup b /\ forall x, In x a -> ~ In x b.
Proof.
  induction a as [|x a IH]; cbn; intros N; [split; [constructor|split; auto]|]. inversion N; subst. destruct (IH H2) as (H3 & H4 & H5). split; [|split; auto].
  - constructor; auto. intros I. apply H1, in_or_app. auto.
  - intros y [<-|Y]; auto. intros I. apply H1, in_or_app. auto.
Qed.
Lemma nodup_app_intro {A} (a b : list A) : NoDup a -> NoDup b -> (forall x, In x a -> ~ In x b) -> NoDup (a ++ b).
Proof.
  induction 1 as [|x a N Na IH]; cbn; intros Nb D; auto. constructor.
  - intros I. apply in_app_or in I as [I|I]; [contradiction|]. apply (D x); cbn; auto.
  - apply IH; auto.
Qed.

(** The state and the elements of the source *)
Record inv (s : fst_ (T := T)) (zs : list T) : Prop := {
  i_pw : pw same zs;
  i_grs : map fst (grs s) = grouping zs;
  i_nodup : NoDup (observers (grs s));
  i_shows : forall g os i, In (g, os) (grs s) -> In i os -> forall z, shows (glog s i) z <-> In z g;
  i_gone : forall i, ~ In i (observers (grs s)) -> forall z, ~ shows (glog s i) z;
  i_wnodup : NoDup (watch s);
  i_wshows : forall i, In i (watch s) -> forall k, wshows fk (wlog s i) k <-> has_key fk zs k
}.

Lemma keys_has zs k : In k (keys fk zs) <-> has_key fk zs k.
Proof. apply keys_in. Qed.

Lemma add_inv v s s' zs : on_add pk fk v s = Ok s' -> inv s zs -> inv s' (v :: zs).
Proof.
  intros E [P G N SH GO WN WS]. pose proof (keyed_grouping _ _ G) as KD. pose proof (keys_inc fk zs) as KI. unfold on_add in E.
  destruct (find_pos_ok (fk v) _ _ KD) as (o & E1 & E2 & E3). rewrite E1 in E. cbn [rbind] in E. destruct o as [n|].
  - destruct E3 as (a & g & os & b & EG & <- & GK). rewrite EG, nth_split_eq in E, E2. cbn [option_map fst] in E2.
    destruct (vinsert (pk_lt pk) v g) as [g' new] eqn:V. destruct new; [|discriminate]. cbn [guard] in E. injection E as <-. rewrite set_split.
    rewrite EG in KD. pose proof (set_pos _ _ _ _ _ g' _ KD KI GK) as SP.
    assert (FA : f_added pk fk v (grouping zs) = Ok (map fst (a ++ (g', os) :: b))).
    { unfold f_added. rewrite <- G, EG, E2. cbn [rbind]. rewrite V. exact SP. }
    destruct (f_added_inv _ _ _ _ _ P FA) as (P' & G'). pose proof (vinsert_in pk fk _ _ _ _ V) as IN.
    rewrite EG in N, SH, GO. rewrite observers_split in N, GO. destruct (nodup_app_inv _ _ N) as (N1 & N2 & N3). destruct (nodup_app_inv _ _ N2) as (N4 & N5 & N6).
    constructor; cbn [grs watch glog wlog]; auto.
    + now rewrite observers_split.
    + intros h oh i I Io z. apply in_app_or in I as [I|[I|I]].
      * rewrite tell_no; auto. 2:{ intros X. apply (N3 i); [eapply observers_in; eauto|apply in_or_app; auto]. } apply (SH h oh); auto. apply in_or_app. auto.
      * injection I as <- <-. rewrite tell_yes by auto. cbn [shows]. rewrite (SH g os i) by (auto; apply in_or_app; cbn; auto). rewrite IN. tauto.
      * rewrite tell_no; auto. 2:{ intros X. apply (N6 i); auto. eapply observers_in; eauto. } apply (SH h oh); auto. apply in_or_app. cbn. auto.
    + intros i NI. rewrite observers_split in NI. rewrite tell_no; auto. intros X. apply NI. rewrite !in_app_iff. auto.
    + intros i I k. rewrite WS by auto. split; intros (x & X & F); [exists x; cbn; auto|]. destruct X as [<-|X]; [|exists x; auto].
      apply keys_has. subst k. clear - KD GK. revert KD. generalize (keys fk zs). induction a as [|y a IH]; intros ks KD; inversion KD; subst; cbn in *; [left; congruence|right; auto].
  - destruct (insert_gr fk ([v], []) (grs s)) as [gs| |] eqn:IG; cbn [rbind] in E; try discriminate. injection E as <-.
    destruct (insert_gr_ok _ _ _ _ IG) as (IG1 & a & b & EG & ->).
    assert (FA : f_added pk fk v (grouping zs) = Ok (map fst (a ++ ([v], []) :: b))).
    { unfold f_added. rewrite <- G, E2. cbn [rbind]. exact IG1. }
    destruct (f_added_inv _ _ _ _ _ P FA) as (P' & G').
    assert (OB : observers (a ++ ([v], []) :: b) = observers (grs s)) by (rewrite EG, observers_split, observers_app; reflexivity).
    constructor; cbn [grs watch glog wlog]; auto.
    + now rewrite OB.
    + intros h oh i I Io. apply in_app_or in I as [I|[I|I]]; [| |]; try (apply (SH h oh); auto; rewrite EG; apply in_or_app; auto).
      injection I as <- <-. destruct Io.
    + rewrite OB. auto.
    + intros i I k. rewrite tell_watch_yes by auto. cbn [wshows]. rewrite WS by auto. unfold has_key. cbn [In]. split.
      * intros [(x & [<-|[]] & F)|(x & X & F)]; eauto.
      * intros (x & [<-|X] & F); [left; eauto|right; eauto].
Qed.

Lemma find_has (g : list T) v x : find (fun y => Z.eqb (pk y) (pk v)) g = Some x -> existsb (fun y => Z.eqb (pk y) (pk v)) g = true.
Proof. intros F. apply find_some in F. apply existsb_exists. eauto. Qed.

Lemma same_in zs x y : pw same zs -> In x zs -> In y zs -> same x y = true -> x = y.
Proof.
  induction zs as [|z zs IH]; cbn; [tauto|]. intros (P1 & P2) [->|X] [->|Y] S; auto.
  - rewrite P1 in S by auto. discriminate.
  - rewrite same_sym, P1 in S by auto. discriminate.
Qed.

Lemma remove_inv v s s' zs zs' : on_remove pk fk v s = Ok s' -> Permutation zs (v :: zs') -> inv s zs -> inv s' zs'.
Proof.
  intros E PE [P G N SH GO WN WS]. pose proof (keyed_grouping _ _ G) as KD. pose proof (keys_inc fk zs) as KI. unfold on_remove in E.
  destruct (find_pos_ok (fk v) _ _ KD) as (o & E1 & E2 & E3). rewrite E1 in E. cbn [rbind] in E. destruct o as [n|]; [|discriminate].
  destruct E3 as (a & g & os & b & EG & <- & GK). rewrite EG, nth_split_eq in E, E2. cbn [option_map fst] in E2. rewrite EG in KD.
  assert (P' : pw same zs') by (apply (pw_perm same (same_sym pk fk) _ (v :: zs')) in P; [apply P|auto]).
  assert (IV : In v zs) by (apply (Permutation_in _ (Permutation_sym PE)); cbn; auto).
  assert (GR : forall r, f_removing pk fk v (grouping zs) = Ok r -> r = grouping zs').
  { intros r F. destruct (f_removing_inv _ _ _ _ _ P F) as (a' & x & b' & Z0 & SM & ->). assert (v = x) as <- by (apply (same_in zs); auto; rewrite Z0; apply in_or_app; cbn; auto).
    apply grouping_ext; [rewrite Z0 in P; eapply pw_mid; eauto|]. rewrite Z0 in PE. apply Permutation_cons_inv with (a := v). rewrite <- PE. apply Permutation_middle. }
  assert (SEL : forall z, In z g <-> In z zs /\ fk z = fk v).
  { assert (IG : In g (grouping zs)) by (rewrite <- G, EG, map_app; apply in_or_app; cbn; auto). rewrite grouping_grp in IG. apply in_map_iff in IG as (k & <- & K).
    rewrite (grp_key pk fk zs k K) in GK. injection GK as ->. intros z. unfold grp. split; intros Z0.
    - apply sel_in. eapply Permutation_in; [apply isort_perm|exact Z0].
    - eapply Permutation_in; [symmetry; apply isort_perm|]. now apply sel_in. }
  assert (PK : forall x, In x g -> pk x = pk v -> x = v).
  { intros x X F. apply SEL in X as (X1 & X2). apply (same_in zs); auto. unfold ObsSetProofs.same. lia. }
  rewrite EG in N, SH, GO. rewrite observers_split in N, GO. destruct (nodup_app_inv _ _ N) as (N1 & N2 & N3). destruct (nodup_app_inv _ _ N2) as (N4 & N5 & N6).
  assert (HK : forall k, k <> fk v -> has_key fk zs k <-> has_key fk zs' k).
  { intros k NK. split; intros (z & Z0 & F); exists z; (split; [|auto]).
    - apply (Permutation_in _ PE) in Z0 as [<-|Z0]; [congruence|auto].
    - apply (Permutation_in _ (Permutation_sym PE)). cbn. auto. }
  assert (EQ : (exists x, g = [x]) \/ exists x y r, g = x :: y :: r) by (destruct g as [|x [|y r]]; [discriminate|left; eauto|right; eauto]).
  destruct EQ as [(x & ->)|(x & y & r & ->)].
  - destruct (Z.eqb_spec (pk x) (pk v)) as [EX|]; [|discriminate]. cbn [guard] in E. injection E as <-. rewrite remove_split. assert (x = v) as -> by (apply PK; cbn; auto).
    assert (FR : f_removing pk fk v (grouping zs) = Ok (map fst (a ++ b))).
    { unfold f_removing. rewrite <- G, EG, E2. cbn [rbind]. rewrite Z.eqb_refl. cbn [guard]. eapply erase_pos; eauto. }
    apply GR in FR. constructor; cbn [grs watch glog wlog]; auto.
    + rewrite observers_app. apply nodup_app_intro; auto. intros i I J. apply (N3 i); auto. apply in_or_app. auto.
    + intros h oh i I Io z. rewrite tell_no; auto.
      * apply (SH h oh); auto. apply in_app_or in I as [I|I]; apply in_or_app; cbn; auto.
      * intros X. apply in_app_or in I as [I|I].
        -- apply (N3 i); [eapply observers_in; eauto|apply in_or_app; auto].
        -- apply (N6 i); auto. eapply observers_in; eauto.
    + intros i NI z. rewrite tell_in by auto. destruct (existsb (Nat.eqb i) os) eqn:X; [cbn; auto|]. apply mem_false in X. apply GO. rewrite observers_app in NI. rewrite !in_app_iff in *. tauto.
    + intros i I k. rewrite tell_watch_yes by auto. cbn [wshows]. rewrite WS by auto. unfold has_key at 1. cbn [In]. destruct (Z.eq_dec k (fk v)) as [->|NK].
      * split; [intros (X & _); destruct X; eauto|]. intros (z & Z0 & F). exfalso.
        assert (Z1 : In z [v]). { apply SEL. split; auto. apply (Permutation_in _ (Permutation_sym PE)). cbn. auto. } destruct Z1 as [<-|[]].
        apply (pw_perm same (same_sym pk fk) _ (v :: zs')) in P; auto. destruct P as (P1 & _). specialize (P1 v Z0). unfold ObsSetProofs.same in P1. lia.
      * rewrite <- HK by auto. split; [tauto|]. intros X. split; auto. intros (z & [<-|[]] & F). congruence.
  - destruct (find (fun y0 => (pk y0 =? pk v)%Z) (x :: y :: r)) as [w|] eqn:FW; [|discriminate]. set (g := x :: y :: r) in *. rewrite set_split in E.
    assert (w = v) as ->. { destruct (find_some _ _ FW) as (F1 & F2). apply PK; auto. lia. }
    remember (vremove (fun y0 => (pk y0 =? pk v)%Z) g) as g' eqn:DG. injection E as <-.
    assert (FR : f_removing pk fk v (grouping zs) = Ok (map fst (a ++ (g', os) :: b))).
    { unfold f_removing. rewrite <- G, EG, E2. cbn [rbind]. unfold g at 1. cbv beta iota. fold g. rewrite (find_has _ _ _ FW). cbn [guard]. rewrite <- DG. eapply set_pos; eauto. }
    pose proof (GR _ FR) as GR'. 
    assert (IN : forall z, In z g' <-> In z g /\ z <> v).
    { assert (IG : In g' (grouping zs')) by (rewrite <- GR', map_app; apply in_or_app; cbn; auto).
      intros z. split.
      - intros Z0. split; [rewrite DG in Z0; eapply vremove_sub; eauto|]. intros ->.
        assert (X : In v zs'). { apply (in_grouping pk fk). apply in_concat. eauto. }
        apply (pw_perm same (same_sym pk fk) _ (v :: zs')) in P; auto. destruct P as (P1 & _). specialize (P1 v X). unfold ObsSetProofs.same in P1. lia.
      - intros (Z0 & NE). rewrite DG. destruct (vremove_in _ _ _ FW z Z0); [contradiction|auto]. }
    constructor; cbn [grs watch glog wlog]; auto.
    + now rewrite observers_split.
    + intros h oh i I Io z. apply in_app_or in I as [I|[I|I]].
      * rewrite tell_no; auto. 2:{ intros X. apply (N3 i); [eapply observers_in; eauto|apply in_or_app; auto]. } apply (SH h oh); auto. apply in_or_app. auto.
      * injection I as <- <-. rewrite tell_yes by auto. cbn [shows]. rewrite (SH g os i) by (auto; apply in_or_app; cbn; auto). rewrite IN. tauto.
      * rewrite tell_no; auto. 2:{ intros X. apply (N6 i); auto. eapply observers_in; eauto. } apply (SH h oh); auto. apply in_or_app. cbn. auto.
    + intros i NI. rewrite observers_split in NI. rewrite tell_no; auto. intros X. apply NI. rewrite !in_app_iff. auto.
    + intros i I k. rewrite WS by auto. destruct (Z.eq_dec k (fk v)) as [->|NK]; [|now apply HK].
      assert (Y : exists z, In z g' /\ fk z = fk v).
      { assert (Q : x <> v \/ y <> v).
        { destruct (Z.eq_dec (pk x) (pk v)) as [Ex|]; [|left; congruence]. right. intros ->.
          assert (GP : pw (eqv (plt pk)) g).
          { assert (IG : In g (grouping zs)) by (rewrite <- G, EG, map_app; apply in_or_app; cbn; auto). rewrite grouping_grp in IG. apply in_map_iff in IG as (k0 & EQ0 & _). rewrite <- EQ0.
            unfold grp. eapply pw_perm; [apply eqv_sym|symmetry; apply isort_perm|]. now apply sel_pw. }
          destruct GP as (GP & _). specialize (GP v). rewrite (eqv_plt pk fk) in GP. rewrite Ex, Z.eqb_refl in GP. discriminate GP. cbn. auto. }
        destruct Q as [Q|Q]; [exists x|exists y]; (split; [apply IN; split; [unfold g; cbn; auto|auto]|apply SEL; unfold g; cbn; auto]). }
      destruct Y as (z & Y1 & Y2). split; intros _; [|exists v; auto]. exists z. split; auto. apply (in_grouping pk fk). rewrite <- GR', map_app. apply in_concat. exists g'. split; auto. apply in_or_app. cbn. auto.
Qed.

Lemma tell_all c gs : forall l : nat -> list call, fold_left (fun l g => tell c (snd g) l) gs l = tell c (observers gs) l.
Proof. induction gs as [|[g os] gs IH]; intros l; auto. cbn [fold_left snd]. rewrite IH. unfold tell, observers. cbn [map concat snd]. now rewrite fold_left_app. Qed.

Lemma clear_inv s zs : inv s zs -> inv (on_clear s) [].
Proof.
  intros [P G N SH GO WN WS]. unfold on_clear. destruct (grs s) as [|g0 gs] eqn:EG.
  - assert (zs = []) as ->.
    { destruct zs as [|z zs]; auto. exfalso. assert (X : In z (concat (grouping (z :: zs)))) by (apply in_grouping; cbn; auto). rewrite <- G in X. destruct X. }
    constructor; rewrite ?EG; auto.
  - rewrite tell_all. constructor; cbn [grs watch glog wlog]; auto.
    + exact I.
    + constructor.
    + intros g os i [].
    + intros i _ z. rewrite tell_in by auto. destruct (existsb (Nat.eqb i) (observers (g0 :: gs))) eqn:X; [cbn; auto|]. apply mem_false in X. auto.
    + intros i I k. rewrite tell_watch_yes by auto. cbn. split; [tauto|]. intros (x & [] & _).
Qed.

Lemma shows_start g : forall z, shows (rev (map (KAdded (T := T)) g)) z <-> In z g.
Proof.
  intros z. rewrite <- map_rev. rewrite in_rev. induction (rev g) as [|x l IH]; cbn; [tauto|]. rewrite IH. split; intros [->|]; auto.
Qed.
Lemma wshows_start gs : forall k, wshows fk (rev (map (fun g : group => GAdded (fst g)) gs)) k <-> exists g, In g gs /\ has_key fk (fst g) k.
Proof.
  intros k. rewrite <- map_rev. assert (Q : (exists g, In g gs /\ has_key fk (fst g) k) <-> exists g, In g (rev gs) /\ has_key fk (fst g) k) by (split; intros (g & X & Y); exists g; (split; [apply in_rev; auto; rewrite rev_involutive; auto|auto])).
  rewrite Q. clear Q. induction (rev gs) as [|g l IH]; cbn; [split; [tauto|intros (g & [] & _)]|]. rewrite IH. split.
  - intros [X|(h & X & Y)]; [exists g; auto|exists h; auto].
  - intros (h & [<-|X] & Y); [auto|right; eauto].
Qed.

Lemma unsubscribed i s : subscribed (T := T) i s = false -> ~ In i (observers (grs s)) /\ ~ In i (watch s).
Proof.
  unfold subscribed. intros E. apply orb_false_iff in E as (E1 & E2). split; [|now apply mem_false]. intros I. unfold observers in I. apply in_concat in I as (os & I1 & I2).
  apply in_map_iff in I1 as ((g & os') & <- & I1). assert (X : existsb (fun g => existsb (Nat.eqb i) (snd g)) (grs s) = true); [|congruence].
  apply existsb_exists. exists (g, os'). split; auto. apply mem_true. auto.
Qed.

Lemma observe_inv i k s s' zs : fstep pk fk (FObserve i k) s = Ok s' -> inv s zs -> inv s' zs.
Proof.
  intros E [P G N SH GO WN WS]. pose proof (keyed_grouping _ _ G) as KD. cbn [fstep] in E. destruct (subscribed i s) eqn:U; [discriminate|]. apply unsubscribed in U as (U & _).
  destruct (find_pos_ok k _ _ KD) as (o & E1 & _ & E3). rewrite E1 in E. cbn [rbind] in E. destruct o as [n|]; [|discriminate].
  destruct E3 as (a & g & os & b & EG & <- & GK). rewrite EG, nth_split_eq, set_split in E. injection E as <-.
  rewrite EG in *. rewrite observers_split in N, GO, U. destruct (nodup_app_inv _ _ N) as (N1 & N2 & N3). destruct (nodup_app_inv _ _ N2) as (N4 & N5 & N6). rewrite !in_app_iff in U.
  assert (OI : forall j, In j (observers (a ++ (g, os ++ [i]) :: b)) <-> j = i \/ In j (observers a ++ os ++ observers b)).
  { intros j. rewrite observers_split, !in_app_iff. cbn [In]. intuition. }
  constructor; cbn [grs watch glog wlog]; auto.
  - rewrite <- G. now rewrite !map_app.
  - rewrite observers_split. apply nodup_app_intro; auto.
    + rewrite <- app_assoc. apply nodup_app_intro; auto; [constructor; [tauto|auto]|]. intros x X [<-|Y]; [tauto|]. apply (N6 x); auto.
    + intros x X Y. rewrite !in_app_iff in Y. cbn [In] in Y. destruct Y as [[Y|[<-|[]]]|Y]; [apply (N3 x); auto; apply in_or_app; auto|tauto|apply (N3 x); auto; apply in_or_app; auto].
  - intros h oh j I Io z. destruct (Nat.eq_dec j i) as [->|NE].
    + rewrite upd_eq, shows_start. apply in_app_or in I as [I|[I|I]].
      * exfalso. apply U. left. eapply observers_in; eauto.
      * injection I as <- <-. tauto.
      * exfalso. apply U. right. right. eapply observers_in; eauto.
    + rewrite upd_neq by auto. apply in_app_or in I as [I|[I|I]].
      * apply (SH h oh); auto. apply in_or_app. auto.
      * injection I as <- <-. apply (SH g os); [apply in_or_app; cbn; auto|]. apply in_app_or in Io as [|[->|[]]]; auto. now destruct NE.
      * apply (SH h oh); auto. apply in_or_app. cbn. auto.
  - intros j NJ. rewrite OI in NJ. rewrite upd_neq by tauto. apply GO. tauto.
Qed.
Lemma watch_inv i s s' zs : fstep pk fk (FWatch i) s = Ok s' -> inv s zs -> inv s' zs.
Proof.
  intros E [P G N SH GO WN WS]. cbn [fstep] in E. destruct (subscribed i s) eqn:U; [discriminate|]. apply unsubscribed in U as (_ & U). injection E as <-.
  constructor; cbn [grs watch glog wlog]; auto.
  - apply nodup_app_intro; auto; [constructor; auto; constructor|]. intros x X [<-|[]]. auto.
  - intros j J k. destruct (Nat.eq_dec j i) as [->|NE].
    + rewrite upd_eq, wshows_start. split.
      * intros ((g & os) & X & (z & Z0 & F)). exists z. split; auto. apply (in_grouping pk fk). rewrite <- G. apply in_concat. exists g. split; auto. apply in_map_iff. exists (g, os). auto.
      * intros (z & Z0 & F). apply (in_grouping pk fk) in Z0. rewrite <- G in Z0. apply in_concat in Z0 as (g & X & Y). apply in_map_iff in X as (h & <- & X). exists h. split; auto. exists z. auto.
    + rewrite upd_neq by auto. apply WS. apply in_app_or in J as [|[->|[]]]; auto. now destruct NE.
Qed.
Lemma leave_in i l j : In j (leave i l) <-> In j l /\ j <> i.
Proof. unfold leave. rewrite filter_In. destruct (Nat.eqb_spec j i); cbn; intuition congruence. Qed.
Lemma leave_inv i s s' zs : fstep pk fk (FLeave i) s = Ok s' -> inv s zs -> inv s' zs.
Proof.
  intros E [P G N SH GO WN WS]. cbn [fstep] in E. injection E as <-.
  assert (OB : observers (map (fun g : group => (fst g, leave i (snd g))) (grs s)) = leave i (observers (grs s))).
  { clear. unfold observers, leave. induction (grs s) as [|g gs IH]; auto. cbn [map concat snd]. rewrite filter_app, <- IH. reflexivity. }
  unfold GroupObsModel.group in *. constructor; cbn [grs watch glog wlog]; auto.
  - rewrite map_map. cbn. auto.
  - rewrite OB. unfold leave. now apply NoDup_filter.
  - intros g os j I J z. apply in_map_iff in I as ((h & oh) & [= <- <-] & I). apply leave_in in J as (J & NE). rewrite upd_neq by auto. apply (SH h oh); auto.
  - intros j NJ z. rewrite OB, leave_in in NJ. destruct (Nat.eq_dec j i) as [->|NE]; [rewrite upd_eq; auto|]. rewrite upd_neq by auto. apply GO. tauto.
  - unfold leave. now apply NoDup_filter.
  - intros j J. apply leave_in in J as (J & NE). rewrite upd_neq by auto. auto.
Qed.

Lemma frun_inv os : forall s s' zs zs', frun pk fk os s = Ok s' -> elements zs os zs' -> inv s zs -> inv s' zs'.
Proof.
  induction os as [|o os IH]; intros s s' zs zs' R E I; cbn [frun] in R; [inversion E; subst; injection R as <-; auto|].
  destruct (fstep pk fk o s) as [s1| |] eqn:S; cbn [rbind] in R; try discriminate. inversion E; subst.
  - eapply IH; eauto. eapply add_inv; eauto.
  - eapply IH; eauto. eapply remove_inv; eauto.
  - eapply IH; eauto. cbn in S. injection S as <-. eapply clear_inv; eauto.
  - eapply IH; eauto. eapply observe_inv; eauto.
  - eapply IH; eauto. eapply watch_inv; eauto.
  - eapply IH; eauto. eapply leave_inv; eauto.
Qed.
Lemma finit_inv : inv finit [].
Proof. constructor; cbn; try constructor; try (intros; tauto); auto. Qed.

(** An observer of a group knows exactly the elements of the source with the foreign key of the group; when the last one is removed
    it knows nothing and is not subscribed any more. *)
Theorem group_observer_knows : forall os s zs i, frun pk fk os finit = Ok s -> elements [] os zs ->
  (exists k, (exists g o, In (g, o) (grs s) /\ In i o /\ has_key fk g k) /\ forall z, shows (glog s i) z <-> In z zs /\ fk z = k) \/
  ((forall g o, In (g, o) (grs s) -> ~ In i o) /\ forall z, ~ shows (glog s i) z).
Proof.
  intros os s zs i R E. destruct (frun_inv _ _ _ _ _ R E finit_inv) as [P G N SH GO WN WS].
  destruct (in_dec Nat.eq_dec i (observers (grs s))) as [I|I].
  - left. unfold observers in I. apply in_concat in I as (o & I1 & I2). apply in_map_iff in I1 as ((g & o') & <- & I1). cbn [snd] in I2.
    assert (IG : In g (grouping zs)) by (rewrite <- G; apply in_map_iff; exists (g, o'); auto). rewrite grouping_grp in IG. apply in_map_iff in IG as (k & EQ & K). exists k.
    assert (SEL : forall z, In z g <-> In z zs /\ fk z = k).
    { intros z. rewrite <- EQ. unfold grp. split; intros Z0; [apply sel_in; eapply Permutation_in; [apply isort_perm|exact Z0]|eapply Permutation_in; [symmetry; apply isort_perm|now apply sel_in]]. }
    split.
    + exists g, o'. split; auto. split; auto. apply keys_in in K as (z & Z0 & F). exists z. split; auto. now apply SEL.
    + intros z. rewrite (SH g o') by auto. apply SEL.
  - right. split; auto. intros g o X Y. apply I. eapply observers_in; eauto.
Qed.

(** An observer of the foreign_set knows the foreign keys of the elements of the source. *)
Theorem group_watcher_knows : forall os s zs i, frun pk fk os finit = Ok s -> elements [] os zs -> In i (watch s) ->
  forall k, wshows fk (wlog s i) k <-> exists z, In z zs /\ fk z = k.
Proof. intros os s zs i R E I. destruct (frun_inv _ _ _ _ _ R E finit_inv) as [P G N SH GO WN WS]. intros k. now apply WS. Qed.

(** The observers do not change what the foreign_set contains: the groups are those of C23, one for each key. *)
Theorem group_contents : forall os s zs, frun pk fk os finit = Ok s -> elements [] os zs -> map fst (grs s) = grouping zs.
Proof. intros os s zs R E. now destruct (frun_inv _ _ _ _ _ R E finit_inv). Qed.

Lemma inv_progress s zs v : inv s zs ->
  ((forall z, In z zs -> fk z = fk v -> pk z <> pk v) -> exists s', fstep pk fk (FAdd v) s = Ok s') /\
  (In v zs -> exists s', fstep pk fk (FRemove v) s = Ok s').
Proof.
  intros [P G N SH GO WN WS]. pose proof (keyed_grouping _ _ G) as KD. cbn [fstep].
  destruct (find_pos_ok (fk v) _ _ KD) as (o & E1 & E2 & E3). split.
  - intros H. assert (PW : pw same (v :: zs)) by (split; [|exact P]; intros y Y; unfold ObsSetProofs.same; specialize (H y Y); lia).
    pose proof (f_added_ok pk fk v zs PW) as FA. unfold on_add. rewrite E1. cbn [rbind]. unfold f_added in FA. rewrite <- G, E2 in FA. cbn [rbind] in FA. destruct o as [n|].
    + destruct E3 as (a & g & os' & b & EG & <- & GK). rewrite EG, nth_split_eq in *. cbn [option_map fst] in FA. destruct (vinsert (pk_lt pk) v g) as [g' []]; cbn [guard] in *; [eauto|discriminate].
    + cbn [vinsert existsb vins filter app fst] in FA.
      assert (X : forall gs r, insert_group fk [v] (map fst gs) = Ok r -> exists gs', insert_gr fk ([v], []) gs = Ok gs').
      { induction gs as [|[h oh] gs IH]; intros r U; cbn [insert_gr insert_group map fst group_key rbind] in *; [eauto|]. destruct (group_key fk h) as [kh| |]; cbn [rbind] in *; try discriminate.
        destruct (fk v <? kh)%Z; [eauto|]. destruct (insert_group fk [v] (map fst gs)) as [r'| |]; cbn [rbind] in U; try discriminate. destruct (IH r' eq_refl) as (gs' & ->). cbn. eauto. }
      destruct (X (grs s) _ FA) as (gs' & ->). cbn. eauto.
  - intros I. apply in_split in I as (a' & b' & ->). pose proof (f_removing_ok pk fk a' v b' P) as FR. unfold on_remove. rewrite E1. cbn [rbind].
    unfold f_removing in FR. rewrite <- G, E2 in FR. cbn [rbind] in FR. destruct o as [n|]; [|discriminate].
    destruct E3 as (a & g & os' & b & EG & <- & GK). rewrite EG, nth_split_eq in *. cbn [option_map fst] in FR. destruct g as [|x [|y r]]; [discriminate| |].
    + destruct (pk x =? pk v)%Z; cbn [guard] in *; [eauto|discriminate].
    + destruct (find (fun y0 => (pk y0 =? pk v)%Z) (x :: y :: r)) as [w|] eqn:F; [eauto|]. exfalso.
      assert (X : existsb (fun y0 => (pk y0 =? pk v)%Z) (x :: y :: r) = false).
      { destruct (existsb _ _) eqn:Q; auto. apply existsb_exists in Q as (w & W1 & W2). pose proof (find_none _ _ F w W1). congruence. }
      rewrite X in FR. discriminate.
Qed.
(** An element with new keys can be added, and one of the source can be removed, in every state. *)
Theorem group_progress : forall os s zs v, frun pk fk os finit = Ok s -> elements [] os zs ->
  ((forall z, In z zs -> fk z = fk v -> pk z <> pk v) -> exists s', fstep pk fk (FAdd v) s = Ok s') /\
  (In v zs -> exists s', fstep pk fk (FRemove v) s = Ok s').
Proof. intros os s zs v R E. apply inv_progress. exact (frun_inv _ _ _ _ _ R E finit_inv). Qed.
(** An observer stays subscribed to its group while an element of the source has its key. *)
Lemma step_keeps o s s' g os : fstep pk fk o s = Ok s' -> In (g, os) (grs s) ->
  (exists g' os', In (g', os') (grs s') /\ (forall i, o <> FLeave i -> In i os -> In i os') /\ (incl g g' \/ incl g' g)) \/
  o = FClear \/ exists v, o = FRemove v /\ exists x, g = [x] /\ pk x = pk v /\ group_key fk g = Ok (fk v).
Proof.
  intros E I.
  assert (same_grs : grs s' = grs s -> exists g' os', In (g', os') (grs s') /\ (forall i, o <> FLeave i -> In i os -> In i os') /\ (incl g g' \/ incl g' g)).
  { intros ->. exists g, os. split; auto. split; auto. left. intros z; auto. }
  assert (FP : forall k gs o, find_pos fk k gs = Ok o -> match o with Some n => exists a g os b, gs = a ++ (g, os) :: b /\ length a = n /\ group_key fk g = Ok k | None => True end).
  { clear. induction gs as [|[h oh] gs IH]; intros o; cbn [find_pos]; [intros [= <-]; auto|]. destruct (group_key fk h) as [k'| |] eqn:K; cbn [rbind]; try discriminate.
    destruct (find_pos fk k gs) as [o'| |]; cbn [rbind]; try discriminate. intros [= <-]. specialize (IH o' eq_refl). destruct (Z.eqb_spec k' k) as [->|].
    - exists [], h, oh, gs. auto.
    - destruct o' as [m|]; cbn; auto. destruct IH as (a & g & os & b & -> & <- & G). exists ((h, oh) :: a), g, os, b. auto. }
  destruct o as [v|v| |i k|i|i]; cbn [fstep] in E.
  - left. unfold on_add in E. destruct (find_pos fk (fk v) (grs s)) as [o| |] eqn:F; cbn [rbind] in E; try discriminate. apply FP in F. destruct o as [n|].
    + destruct F as (a & h & oh & b & EG & <- & GK). rewrite EG, nth_split_eq in E. destruct (vinsert (pk_lt pk) v h) as [h' []] eqn:V; [|discriminate]. cbn [guard] in E. injection E as <-. rewrite set_split. cbn [grs].
      pose proof (vinsert_in pk fk _ _ _ _ V) as IN. rewrite EG in I. apply in_app_or in I as [I|[I|I]].
      * exists g, os. split; [apply in_or_app; auto|]. split; auto. left; intros z; auto.
      * injection I as -> ->. exists h', os. split; [apply in_or_app; cbn; auto|]. split; auto. left. intros z Z0. apply IN. auto.
      * exists g, os. split; [apply in_or_app; cbn; auto|]. split; auto. left; intros z; auto.
    + destruct (insert_gr fk ([v], []) (grs s)) as [gs| |] eqn:IG; cbn [rbind] in E; try discriminate. injection E as <-. apply insert_gr_ok in IG as (_ & a & b & EG & ->). rewrite EG in I.
      exists g, os. cbn [grs]. split; [apply in_app_or in I as [I|I]; apply in_or_app; cbn; auto|]. split; auto. left; intros z; auto.
  - unfold on_remove in E. destruct (find_pos fk (fk v) (grs s)) as [o| |] eqn:F; cbn [rbind] in E; try discriminate. apply FP in F. destruct o as [n|]; [|discriminate].
    destruct F as (a & h & oh & b & EG & <- & GK). rewrite EG, nth_split_eq in E.
    assert (EQ : (exists x, h = [x]) \/ exists x y r, h = x :: y :: r) by (destruct h as [|x [|y r]]; [discriminate|left; eauto|right; eauto]). destruct EQ as [(x & ->)|(x & y & r & ->)].
    + destruct (Z.eqb_spec (pk x) (pk v)) as [EX|]; [|discriminate]. cbn [guard] in E. injection E as <-. rewrite remove_split. cbn [grs].
      assert (K : In (g, os) (a ++ b) -> exists g' os', In (g', os') (a ++ b) /\ (forall i, FRemove (T := T) v <> FLeave i -> In i os -> In i os') /\ (incl g g' \/ incl g' g)).
      { intros K. exists g, os. split; auto. split; auto. left; intros z; auto. }
      rewrite EG in I. apply in_app_or in I as [I|[I|I]]; [left; apply K, in_or_app; auto| |left; apply K, in_or_app; auto].
      injection I as <- <-. right. right. exists v. split; auto. exists x. auto.
    + destruct (find (fun y0 => (pk y0 =? pk v)%Z) (x :: y :: r)) as [w|] eqn:FW; [|discriminate]. set (h := x :: y :: r) in *. rewrite set_split in E.
      remember (vremove (fun y0 => (pk y0 =? pk v)%Z) h) as h' eqn:DG. injection E as <-. cbn [grs]. left. rewrite EG in I. apply in_app_or in I as [I|[I|I]].
      * exists g, os. split; [apply in_or_app; auto|]. split; auto. left; intros z; auto.
      * injection I as <- <-. exists h', oh. split; [apply in_or_app; cbn; auto|]. split; auto. right. intros z Z0. rewrite DG in Z0. eapply vremove_sub; eauto.
      * exists g, os. split; [apply in_or_app; cbn; auto|]. split; auto. left; intros z; auto.
  - auto.
  - destruct (subscribed i s); [discriminate|]. destruct (find_pos fk k (grs s)) as [o| |] eqn:F; cbn [rbind] in E; try discriminate. apply FP in F. destruct o as [n|]; [|discriminate].
    destruct F as (a & h & oh & b & EG & <- & GK). rewrite EG, nth_split_eq, set_split in E. injection E as <-. cbn [grs]. left. rewrite EG in I. apply in_app_or in I as [I|[I|I]].
    + exists g, os. split; [apply in_or_app; auto|]. split; auto. left; intros z; auto.
    + injection I as <- <-. exists h, (oh ++ [i]). split; [apply in_or_app; cbn; auto|]. split; [intros j _ J; apply in_or_app; auto|]. left; intros z; auto.
    + exists g, os. split; [apply in_or_app; cbn; auto|]. split; auto. left; intros z; auto.
  - destruct (subscribed i s); [discriminate|]. injection E as <-. left. now apply same_grs.
  - injection E as <-. left. cbn [grs]. exists g, (leave i os). split; [apply in_map_iff; exists (g, os); auto|]. split; [|left; intros z; auto].
    intros j NE J. apply leave_in. split; auto.
Qed.
Lemma grouped_key s zs g os : inv s zs -> In (g, os) (grs s) -> exists k, (forall z, In z g <-> In z zs /\ fk z = k) /\ exists z, In z g.
Proof.
  intros H I. assert (IG : In g (grouping zs)) by (rewrite <- (i_grs _ _ H); apply in_map_iff; exists (g, os); auto). rewrite grouping_grp in IG. apply in_map_iff in IG as (k & EQ & K). exists k.
  assert (SEL : forall z, In z g <-> In z zs /\ fk z = k).
  { intros z. rewrite <- EQ. unfold grp. split; intros Z0; [apply sel_in; eapply Permutation_in; [apply isort_perm|exact Z0]|eapply Permutation_in; [symmetry; apply isort_perm|now apply sel_in]]. }
  split; auto. apply keys_in in K as (z & Z0 & F). exists z. now apply SEL.
Qed.
Theorem group_observer_stays : forall os o s s' zs zs' i g ob k, frun pk fk os finit = Ok s -> elements [] os zs ->
  fstep pk fk o s = Ok s' -> elements zs [o] zs' -> o <> FLeave i ->
  In (g, ob) (grs s) -> In i ob -> has_key fk g k ->
  (exists z, In z zs' /\ fk z = k) -> exists g' ob', In (g', ob') (grs s') /\ In i ob' /\ has_key fk g' k.
Proof.
  intros os o s s' zs zs' i g ob k R E F E1 NE I Io (w & W1 & W2) (z & Z1 & Z2). pose proof (frun_inv _ _ _ _ _ R E finit_inv) as V.
  assert (V' : inv s' zs') by (apply (frun_inv [o] s s' zs zs'); auto; cbn; rewrite F; reflexivity).
  destruct (grouped_key _ _ _ _ V I) as (kg & SG & _). assert (kg = k) as -> by (apply SG in W1; destruct W1; congruence).
  destruct (step_keeps _ _ _ _ _ F I) as [(g' & ob' & I' & IO & IC)|[->|(v & -> & x & -> & PX & GK)]].
  - exists g', ob'. split; auto. split; [apply IO; auto|]. destruct (grouped_key _ _ _ _ V' I') as (k' & SG' & z' & Z'). exists z'. split; auto. destruct IC as [IC|IC].
    + apply IC in W1. apply SG' in W1, Z'. destruct W1, Z'. congruence.
    + apply IC in Z'. apply SG in Z'. tauto.
  - exfalso. inversion E1 as [| | |? ? ? Q| | |]; subst. inversion Q; subst. destruct Z1.
  - exfalso. inversion E1 as [| |? ? ? ? ? H1 Q| | | |]; subst. inversion Q; subst. cbn in GK. injection GK as GK. destruct W1 as [<-|[]].
    assert (IV : In v zs) by (apply (Permutation_in _ (Permutation_sym H1)); cbn; auto).
    assert (IX : In x zs) by (apply (proj1 (SG x)); cbn; auto).
    assert (x = v) as -> by (apply (same_in zs); auto; [apply (i_pw _ _ V)|unfold ObsSetProofs.same; lia]).
    assert (Y : In z [v]) by (apply SG; split; auto; apply (Permutation_in _ (Permutation_sym H1)); cbn; auto). destruct Y as [<-|[]].
    pose proof (i_pw _ _ V) as P. apply (pw_perm same (same_sym pk fk) _ (v :: zs')) in P; auto. destruct P as (P1 & _). specialize (P1 v Z1). unfold ObsSetProofs.same in P1. lia.
Qed.

(** Subscribing: an observer knows the present elements and groups at once. *)
Theorem group_subscribe : forall os s zs i k, frun pk fk os finit = Ok s -> elements [] os zs -> subscribed i s = false ->
  ((exists z, In z zs /\ fk z = k) -> exists s' g o, fstep pk fk (FObserve i k) s = Ok s' /\ In (g, o) (grs s') /\ In i o /\ has_key fk g k) /\
  (exists s', fstep pk fk (FWatch i) s = Ok s' /\ In i (watch s')).
Proof.
  intros os s zs i k R E U. destruct (frun_inv _ _ _ _ _ R E finit_inv) as [P G N SH GO WN WS]. pose proof (keyed_grouping _ _ G) as KD. cbn [fstep]. rewrite U. split.
  - intros H. apply keys_in in H. destruct (find_pos_ok k _ _ KD) as (o & E1 & _ & E3). rewrite E1. cbn [rbind]. destruct o as [n|]; [|contradiction].
    destruct E3 as (a & g & ob & b & EG & <- & GK). rewrite EG, nth_split_eq, set_split. eexists _, g, (ob ++ [i]). split; [reflexivity|]. cbn [grs]. split; [apply in_or_app; cbn; auto|]. split; [apply in_or_app; cbn; auto|].
    destruct g as [|x g]; [discriminate|]. cbn in GK. injection GK as GK. exists x. cbn. auto.
  - eexists. split; [reflexivity|]. cbn. apply in_or_app. cbn. auto.
Qed.
End Proofs.

(** Two groups; the observer 1 of the group 2 sees its end, the observer 3 of the whole set sees the groups come and go. *)
Example ex_group_observers :
  let pk := fun x : Z => x in let fk := fun x : Z => Z.modulo x 10 in
  match frun pk fk [FAdd 12; FWatch 3; FAdd 22; FAdd 5; FObserve 1 2; FAdd 32; FRemove 12; FRemove 22; FRemove 32; FAdd 42]%Z finit with
  | Ok s => glog s 1 = [KClearing; KRemoving 22; KRemoving 12; KAdded 32; KAdded 22; KAdded 12]%Z /\
            wlog s 3 = [GAdded [42]; GRemoving [32]; GAdded [5]; GAdded [12]]%Z /\
            grs s = [([42], []); ([5], [])]%Z
  | _ => False
  end.
Proof. vm_compute. auto. Qed.
