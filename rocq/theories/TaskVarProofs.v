(** Ownership of coroutines by tasks in variables; safety of careful programs. *)
From Verif Require Import Common CoroModel TaskVarModel TaskVarSpec.
From Coq Require Import Relations ZifyBool ZifyNat.

Lemma upd_eq {A} (f : nat -> A) x v : upd f x v x = v. Proof. unfold upd. now rewrite Nat.eqb_refl. Qed.
Lemma upd_ne {A} (f : nat -> A) x y v : y <> x -> upd f x v y = f y. Proof. intros H. unfold upd. destruct (Nat.eqb_spec y x); congruence. Qed.
Lemma upd_at {A} (f : nat -> A) x y v : upd f x v y = if Nat.eqb y x then v else f y. Proof. reflexivity. Qed.

Lemma nodup_snoc {A} (l : list A) x : NoDup l -> ~ In x l -> NoDup (l ++ [x]).
Proof. induction l as [|y l IH]; cbn; intros N I; [constructor; auto|]. inversion N; subst. constructor; [|apply IH; tauto]. rewrite in_app_iff. cbn. intuition. Qed.

Lemma skipn_nth {A} : forall (l : list A) k x, nth_error l k = Some x -> skipn k l = x :: skipn (Datatypes.S k) l.
Proof. induction l as [|y l IH]; intros [|k] x H; try discriminate; cbn in *; [now injection H as ->|]. now rewrite (IH _ _ H). Qed.
Definition assigned (st : list tactive) : list nat := flat_map (fun a => match a with AAssign _ c => [c] | _ => [] end) st.
Definition coros (st : list tactive) : list nat := flat_map (fun a => match a with ACoro c => [c] | _ => [] end) st.
Lemma assigned_app a b : assigned (a ++ b) = assigned a ++ assigned b. Proof. apply flat_map_app. Qed.
Lemma coros_app a b : coros (a ++ b) = coros a ++ coros b. Proof. apply flat_map_app. Qed.
Lemma running_spec h st : running h st = true <-> In h (coros st).
Proof.
  unfold running. rewrite existsb_exists. unfold coros. rewrite in_flat_map. split; intros (a & I & H); exists a; split; auto; destruct a; try discriminate; cbn in *; try tauto; [apply Nat.eqb_eq in H; auto|destruct H as [->|[]]; apply Nat.eqb_refl].
Qed.

(** ** Ownership *)
(** Alive, owned, the number of frames, the variables, the temporaries, the destroyed frames *)
Record own (al ow : nat -> bool) (nx : nat) (vs : nat -> option nat) (asg ds : list nat) : Prop := Own {
  o_inj : forall x y c, vs x = Some c -> vs y = Some c -> x = y;
  o_var : forall x c, vs x = Some c -> c < nx /\ al c = true /\ ow c = true /\ ~ In c asg;
  o_tmp : NoDup asg;
  o_asg : forall c, In c asg -> c < nx /\ al c = true /\ ow c = true;
  o_all : forall c, c < nx -> al c = true -> ow c = true -> (exists x, vs x = Some c) \/ In c asg;
  o_nd : NoDup ds;
  o_ds : forall c, In c ds <-> c < nx /\ al c = false }.

Lemma own_ext al ow nx vs asg ds al' ow' : (forall c, al' c = al c) -> (forall c, ow' c = ow c) -> own al ow nx vs asg ds -> own al' ow' nx vs asg ds.
Proof. intros A O [H1 H2 H3 H4 H5 H6 H7]. constructor; intros; rewrite ?A, ?O in *; eauto. Qed.
Lemma own_vars al ow nx vs vs' asg ds : (forall c, vs' c = vs c) -> own al ow nx vs asg ds -> own al ow nx vs' asg ds.
Proof. intros A [H1 H2 H3 H4 H5 H6 H7]. constructor; intros; rewrite ?A in *; eauto. destruct (H5 c) as [[x X]|X]; auto. left. exists x. now rewrite A. Qed.
Lemma own_destroy al ow nx vs asg ds vs' c : own al ow nx vs asg ds -> c < nx -> al c = true -> ~ In c asg -> (forall x, vs' x = match vs x with Some k => if k =? c then None else Some k | None => None end) ->
  own (upd al c false) ow nx vs' asg (ds ++ [c]).
Proof.
  intros [H1 H2 H3 H4 H5 H6 H7] L A NA V.
  assert (W : forall x k, vs' x = Some k -> vs x = Some k /\ k <> c). { intros x k. rewrite V. destruct (vs x) as [j|]; [|discriminate]. destruct (Nat.eqb_spec j c); [discriminate|]. intros E. injection E as <-. auto. }
  constructor.
  - intros x y k X Y. apply W in X as [X _]. apply W in Y as [Y _]. eauto.
  - intros x k X. apply W in X as [X N]. rewrite upd_ne by auto. now apply H2 in X.
  - auto.
  - intros k X. assert (k <> c) by (intros ->; auto). rewrite upd_ne by auto. auto.
  - intros k Lk Ak Ok. destruct (Nat.eq_dec k c) as [->|N]; [rewrite upd_eq in Ak; discriminate|]. rewrite upd_ne in Ak by auto. destruct (H5 k Lk Ak Ok) as [[x X]|X]; auto. left. exists x. rewrite V, X. destruct (Nat.eqb_spec k c); congruence.
  - apply nodup_snoc; auto. intros X. apply H7 in X as [_ X]. congruence.
  - intros k. rewrite in_app_iff, H7. cbn. destruct (Nat.eq_dec k c) as [->|N]; [rewrite upd_eq; tauto|]. rewrite upd_ne by auto. intuition congruence.
Qed.
Lemma own_move al ow nx vs asg ds x y : own al ow nx vs asg ds -> vs x = None -> own al ow nx (upd (upd vs y None) x (vs y)) asg ds.
Proof.
  intros [H1 H2 H3 H4 H5 H6 H7] E. destruct (Nat.eq_dec x y) as [<-|N].
  { apply (own_vars _ _ _ vs); [|constructor; auto]. intros c. rewrite !upd_at. destruct (Nat.eqb_spec c x); congruence. }
  constructor; auto.
  - intros a b c. rewrite !upd_at. destruct (Nat.eqb_spec a x), (Nat.eqb_spec b x), (Nat.eqb_spec a y), (Nat.eqb_spec b y); subst; try congruence; intros X Y; try discriminate; pose proof (H1 _ _ _ X Y); congruence.
  - intros a c. rewrite !upd_at. destruct (Nat.eqb_spec a x), (Nat.eqb_spec a y); subst; try discriminate; eauto.
  - intros c L A O. destruct (H5 c L A O) as [[a X]|X]; auto. left. destruct (Nat.eq_dec a y) as [->|Na]; [exists x; now rewrite upd_eq|]. exists a. assert (a <> x) by congruence. now rewrite !upd_ne by auto.
Qed.
Lemma own_assign al ow nx vs c asg ds x : own al ow nx vs (c :: asg) ds -> vs x = None -> own al ow nx (upd vs x (Some c)) asg ds.
Proof.
  intros [H1 H2 H3 H4 H5 H6 H7] E. inversion H3 as [|? ? N3 N4]; subst. constructor; auto.
  - intros a b k. rewrite !upd_at. destruct (Nat.eqb_spec a x), (Nat.eqb_spec b x); subst; try congruence; eauto; intros X Y; exfalso.
    + injection X as <-. apply H2 in Y. cbn in Y. tauto.
    + injection Y as <-. apply H2 in X. cbn in X. tauto.
  - intros a k. rewrite upd_at. destruct (Nat.eqb_spec a x); [intros X; injection X as <-; pose proof (H4 c (or_introl eq_refl)); tauto|]. intros X. apply H2 in X. cbn in X. tauto.
  - intros k X. apply H4. now right.
  - intros k L A O. destruct (H5 k L A O) as [[a X]|[<-|X]]; auto.
    + left. exists a. assert (a <> x) by congruence. now rewrite upd_ne.
    + left. exists x. now rewrite upd_eq.
Qed.
Lemma own_release al ow nx vs asg ds x c : own al ow nx vs asg ds -> vs x = Some c -> own al (upd ow c false) nx (upd vs x None) asg ds.
Proof.
  intros [H1 H2 H3 H4 H5 H6 H7] E. destruct (H2 _ _ E) as (L & A & O & NA). constructor; auto.
  - intros a b k. rewrite !upd_at. destruct (Nat.eqb_spec a x), (Nat.eqb_spec b x); subst; try congruence; eauto.
  - intros a k. rewrite upd_at. destruct (Nat.eqb_spec a x); [discriminate|]. intros X. assert (k <> c) by (intros ->; eauto). rewrite upd_ne by auto. eauto.
  - intros k X. assert (k <> c) by (intros ->; auto). rewrite upd_ne by auto. auto.
  - intros k Lk Ak Ok. destruct (Nat.eq_dec k c) as [->|N]; [rewrite upd_eq in Ok; discriminate|]. rewrite upd_ne in Ok by auto. destruct (H5 k Lk Ak Ok) as [[a X]|X]; auto. left. exists a. rewrite upd_ne; auto. congruence.
Qed.
Lemma own_start al ow nx vs asg ds : own al ow nx vs asg ds -> own (upd al nx true) (upd ow nx true) (Datatypes.S nx) vs (nx :: asg) ds.
Proof.
  intros [H1 H2 H3 H4 H5 H6 H7]. constructor; auto.
  - intros x c E. destruct (H2 _ _ E) as (L & A & O & NA). rewrite !upd_ne by lia. repeat split; auto. intros [<-|X]; [lia|auto].
  - constructor; auto. intros X. apply H4 in X. lia.
  - intros c [<-|X]; [rewrite !upd_eq; auto|]. destruct (H4 _ X) as (L & A & O). rewrite !upd_ne by lia. auto.
  - intros c L A O. destruct (Nat.eq_dec c nx) as [->|N]; [right; now left|]. rewrite upd_ne in A, O by auto. destruct (H5 c ltac:(lia) A O); auto. right. now right.
  - intros c. rewrite H7. destruct (Nat.eq_dec c nx) as [->|N]; [rewrite upd_eq; intuition (try discriminate; lia)|]. rewrite upd_ne by auto. intuition lia.
Qed.

(** The numbers of coroutines are bounded. *)
Definition al (m : tmachine) (c : nat) : bool := talive (tframes m c).
Definition ow (m : tmachine) (c : nat) : bool := towned (tframes m c).
Record owned (m : tmachine) : Prop := Owned {
  w_own : own (al m) (ow m) (tnext m) (tvars m) (assigned (tstack m)) (tdestroyed m);
  w_stack : forall h, In h (coros (tstack m)) -> h < tnext m;
  w_timers : forall h, In h (ttimers m) -> h < tnext m;
  w_wait : forall c p, c < tnext m -> tawaiting (tframes m c) = Some p -> p < tnext m }.

Lemma destroy_inv m c m' : tdestroy m c = Ok m' -> talive (tframes m c) = true /\ ~ In c (coros (tstack m)) /\ m' = TMachine (upd (tframes m) c (TFrame (tcode (tframes m c)) (tawaiting (tframes m c)) (tresult (tframes m c)) (taken (tframes m c)) (towned (tframes m c)) false)) (tnext m) (tvars m) (tstack m) (ttimers m) (tdestroyed m ++ [c]).
Proof.
  unfold tdestroy, guard. destruct (talive (tframes m c)) eqn:A; cbn [andb]; [|discriminate]. destruct (running c (tstack m)) eqn:R; cbn [negb]; [discriminate|]. intros H. injection H as <-. split; auto. split; auto. intros X. apply running_spec in X. congruence.
Qed.
(** Only the life of a frame changes. *)
Definition same_frames (m m' : tmachine) : Prop := forall c, tcode (tframes m' c) = tcode (tframes m c) /\ tawaiting (tframes m' c) = tawaiting (tframes m c) /\ tresult (tframes m' c) = tresult (tframes m c) /\ towned (tframes m' c) = towned (tframes m c).
Lemma free_owned m x m' : owned m -> tfree m x = Ok m' ->
  owned m' /\ tvars m' x = None /\ (forall y, y <> x -> tvars m' y = tvars m y) /\ tstack m' = tstack m /\ tnext m' = tnext m /\ ttimers m' = ttimers m /\ same_frames m m' /\
  (forall c, talive (tframes m' c) = talive (tframes m c) \/ tvars m x = Some c /\ talive (tframes m' c) = false).
Proof.
  intros [O S T W]. unfold tfree. destruct (tvars m x) as [c|] eqn:E.
  - destruct (tdestroy m c) as [m1| |] eqn:D; cbn [rbind]; try discriminate. intros H. injection H as <-. apply destroy_inv in D as (A & R & ->). unfold set_var; cbn [tframes tnext tvars tstack ttimers tdestroyed].
    destruct (o_var _ _ _ _ _ _ O _ _ E) as (L & _ & _ & NA).
    assert (SF : forall k, let f := upd (tframes m) c (TFrame (tcode (tframes m c)) (tawaiting (tframes m c)) (tresult (tframes m c)) (taken (tframes m c)) (towned (tframes m c)) false) k in
      tcode f = tcode (tframes m k) /\ tawaiting f = tawaiting (tframes m k) /\ tresult f = tresult (tframes m k) /\ towned f = towned (tframes m k)).
    { intros k. cbv zeta. rewrite upd_at. destruct (Nat.eqb_spec k c); subst; cbn; auto. }
    split; [|split; [apply upd_eq|split; [intros; now apply upd_ne|split; [auto|split; [auto|split; [auto|split; [exact SF|]]]]]]].
    + constructor; cbn [tframes tnext tvars tstack ttimers tdestroyed]; auto.
      * eapply own_ext; [| |eapply (own_destroy _ _ _ _ _ _ (upd (tvars m) x None) c O); auto].
        -- intros k. unfold al. cbn [tframes]. rewrite !upd_at. destruct (Nat.eqb_spec k c); auto.
        -- intros k. unfold ow. cbn [tframes]. apply SF.
        -- intros y. rewrite upd_at. destruct (Nat.eqb_spec y x) as [->|N]; [now rewrite E, Nat.eqb_refl|]. destruct (tvars m y) as [k|] eqn:Ey; [|reflexivity]. destruct (Nat.eqb_spec k c) as [->|]; auto. exfalso. apply N. eapply (o_inj _ _ _ _ _ _ O); eauto.
      * intros k p Lk. destruct (SF k) as (_ & -> & _). eauto.
    + intros k. cbn [tframes]. rewrite upd_at. destruct (Nat.eqb_spec k c); subst; cbn; auto.
  - intros H. injection H as <-. split; [constructor; auto|]. repeat split; auto.
Qed.
Lemma owned_same m m' : owned m -> (forall c, al m' c = al m c) -> (forall c, ow m' c = ow m c) -> tnext m' = tnext m -> tvars m' = tvars m -> assigned (tstack m') = assigned (tstack m) -> tdestroyed m' = tdestroyed m ->
  (forall h, In h (coros (tstack m')) -> h < tnext m) -> (forall h, In h (ttimers m') -> h < tnext m) -> (forall c p, c < tnext m -> tawaiting (tframes m' c) = Some p -> p < tnext m) -> owned m'.
Proof. intros [O S T W] A B N V G D H1 H2 H3. constructor; rewrite ?N; auto. rewrite V, G, D. eapply own_ext; eauto. Qed.

Section Step.
Context (update : bool).
Lemma stmt_owned m o m' r a : owned m -> tstmt update m o = Ok (m', r, a) -> owned (set_stack m' (a ++ tstack m)) /\ (forall st, tstack m = st -> tstack m' = st) /\ tnext m <= tnext m'.
Proof.
  intros Ow. destruct o as [x b|x y|x|x|x|x|x]; cbn [tstmt].
  - intros H. injection H as <- <- <-. split; [|split; [auto|cbn; lia]]. destruct Ow as [O S T W]. constructor; cbn [set_stack tframes tnext tvars tstack ttimers tdestroyed].
    + change (assigned ([ACoro (tnext m); AAssign x (tnext m)] ++ tstack m)) with (tnext m :: assigned (tstack m)). eapply own_ext; [| |apply own_start; exact O]; intros c; unfold al, ow; cbn [set_stack tframes]; rewrite !upd_at; destruct (c =? tnext m); reflexivity.
    + intros h. rewrite coros_app. cbn. intros [<-|X]; [lia|]. specialize (S _ X). lia.
    + intros h X. specialize (T _ X). lia.
    + intros c p L. rewrite upd_at. destruct (Nat.eqb_spec c (tnext m)); [discriminate|]. intros X. specialize (W c p ltac:(lia) X). lia.
  - unfold tmove. destruct (tfree m x) as [m1| |] eqn:F; cbn [rbind]; try discriminate. intros H. injection H as <- <- <-. destruct (free_owned _ _ _ Ow F) as (O1 & V1 & _ & S1 & N1 & _). cbn [app]. split; [|split; [intros; cbn; congruence|cbn; lia]].
    destruct O1 as [O S T W]. constructor; cbn [set_stack set_var tframes tnext tvars tstack ttimers tdestroyed]; auto; [|rewrite <- S1; auto]. rewrite <- S1. eapply own_ext; [| |apply own_move; eauto]; reflexivity.
  - destruct (tfree m x) as [m1| |] eqn:F; cbn [rbind]; try discriminate. intros H. injection H as <- <- <-. destruct (free_owned _ _ _ Ow F) as (O1 & V1 & _ & S1 & N1 & _). cbn [app]. split; [|split; [intros; congruence|lia]]. rewrite <- S1. destruct O1 as [O S T W]. constructor; auto.
  - destruct update; [discriminate|]. destruct (tready m x) as [r1| |]; cbn [rbind]; try discriminate. intros H. injection H as <- <- <-. split; [destruct Ow; constructor; auto|auto].
  - destruct update; [discriminate|]. unfold tget. destruct (tvars m x) as [c|]; [|discriminate]. unfold guard. destruct (talive (tframes m c)) eqn:Al; [|discriminate]. destruct (tresult (tframes m c)) as [[v|e]|] eqn:R; cbn [rbind]; try discriminate; intros H; injection H as <- <- <-.
    + split; [|auto]. apply (owned_same m); auto; cbn [app set_stack set_frame tframes tnext tvars tstack ttimers tdestroyed]; try apply Ow.
      * intros k. unfold al. cbn [set_stack set_frame tframes]. rewrite upd_at. destruct (Nat.eqb_spec k c); subst; cbn; auto.
      * intros k. unfold ow. cbn [set_stack set_frame tframes]. rewrite upd_at. destruct (Nat.eqb_spec k c); subst; cbn; auto.
      * intros k p L. rewrite upd_at. destruct (Nat.eqb_spec k c); subst; cbn; apply Ow; auto.
    + split; [destruct Ow; constructor; auto|auto].
  - destruct update; [|discriminate]. destruct (tis_done m x) as [r1| |]; cbn [rbind]; try discriminate. intros H. injection H as <- <- <-. split; [destruct Ow; constructor; auto|auto].
  - destruct update; [|discriminate]. unfold trelease. destruct (tvars m x) as [c|] eqn:E; cbn [rbind].
    + unfold guard. destruct (talive (tframes m c)) eqn:Al; cbn [rbind]; [|discriminate]. intros H. injection H as <- <- <-. split; [|auto]. destruct Ow as [O S T W]. constructor; cbn [app set_stack set_frame set_var tframes tnext tvars tstack ttimers tdestroyed]; auto.
      * eapply own_ext; [| |eapply own_release; eauto].
        -- intros k. unfold al. cbn [tframes set_stack set_var set_frame]. rewrite upd_at. destruct (Nat.eqb_spec k c); subst; cbn; auto.
        -- intros k. unfold ow. cbn [tframes set_stack set_var set_frame]. rewrite !upd_at. destruct (Nat.eqb_spec k c); subst; cbn; auto.
      * intros k p L. rewrite upd_at. destruct (Nat.eqb_spec k c); subst; cbn; apply W; auto.
    + intros H. injection H as <- <- <-. split; [destruct Ow; constructor; auto|auto].
Qed.
Lemma resume_owned m c m' r : tresume update m c = Ok (m', r) -> m' = m \/ exists v, m' = set_frame m c (TFrame (tcode (tframes m c)) (tawaiting (tframes m c)) (tresult (tframes m c)) true (towned (tframes m c)) (talive (tframes m c))) /\ tresult (tframes m c) = Some (OVal v).
Proof.
  unfold tresume. destruct update; [intros H; injection H as <- <-; auto|]. unfold guard. destruct (talive (tframes m c)) eqn:Al; [|discriminate]. destruct (tresult (tframes m c)) as [[v|e]|] eqn:R; try discriminate; intros H; injection H as <- <-; eauto.
Qed.
(** What a change of frames may not touch *)
Lemma owned_frames m m' : owned m -> tnext m' = tnext m -> tvars m' = tvars m -> tdestroyed m' = tdestroyed m -> assigned (tstack m') = assigned (tstack m) ->
  (forall h, In h (coros (tstack m')) -> h < tnext m) -> (forall h, In h (ttimers m') -> h < tnext m) ->
  (forall c, talive (tframes m' c) = talive (tframes m c) /\ towned (tframes m' c) = towned (tframes m c) /\ (tawaiting (tframes m' c) = tawaiting (tframes m c) \/ exists h, tawaiting (tframes m' c) = Some h /\ h < tnext m)) -> owned m'.
Proof.
  intros Ow N V D G S T F. apply (owned_same m); auto; try (intros c; apply F). intros c p L E. destruct (F c) as (_ & _ & [X|(h & X & Lh)]); [|congruence]. rewrite X in E. eapply w_wait; eauto.
Qed.
Lemma tick_owned m m' : owned m -> ttick update m = Ok m' -> owned m' /\ tnext m <= tnext m'.
Proof.
  intros Ow. unfold ttick. destruct (tstack m) as [|[h|x c|[|o k|n k]] st] eqn:Es.
  - intros H. injection H as <-. auto.
  - pose proof (w_stack m Ow h) as Lh. rewrite Es in Lh. specialize (Lh (or_introl eq_refl)).
    assert (As : assigned st = assigned (tstack m)) by (now rewrite Es). assert (Cs : forall g, In g (coros st) -> g < tnext m) by (intros g X; apply (w_stack m Ow); rewrite Es; cbn; auto).
    unfold guard. destruct (talive (tframes m h)) eqn:Ah; [|discriminate]. destruct (tcode (tframes m h)) as [b|c k|] eqn:Ec; try discriminate.
    assert (FIN : forall o, tfinish update m h o st = Ok m' -> owned m' /\ tnext m <= tnext m').
    { intros o. unfold tfinish. set (m1 := TMachine (upd (tframes m) h _) _ _ _ _ _).
      assert (O1 : owned m1). { apply (owned_frames m); auto; try apply Ow. intros c. unfold m1. cbn [tframes]. rewrite upd_at. destruct (Nat.eqb_spec c h); subst; cbn; auto. }
      destruct (towned (tframes m h)) eqn:Et.
      2: destruct (tdestroy m1 h) as [m2| |] eqn:D; cbn [rbind]; try discriminate.
      2: assert (O2 : owned m2 /\ tnext m2 = tnext m1 /\ tstack m2 = st).
      2: { apply destroy_inv in D as (A & R & ->). split; [|auto]. destruct O1 as [O S T W]. constructor; cbn [tframes tnext tvars tstack ttimers tdestroyed]; auto.
           - assert (U1 : ow m1 h = false) by (unfold ow, m1; cbn [tframes]; rewrite upd_eq; cbn; auto). eapply own_ext; [| |eapply (own_destroy _ _ _ _ _ _ (tvars m1) h O); auto].
             + intros c. unfold al. cbn [tframes]. rewrite !upd_at. destruct (Nat.eqb_spec c h); auto.
             + intros c. unfold ow. cbn [tframes]. rewrite (upd_at (tframes m1)). destruct (Nat.eqb_spec c h); subst; cbn; auto.
             + intros X. apply (o_asg _ _ _ _ _ _ O) in X as (_ & _ & X). congruence.
             + intros x. destruct (tvars m1 x) as [c|] eqn:E; [|reflexivity]. destruct (Nat.eqb_spec c h) as [->|]; [|reflexivity]. apply (o_var _ _ _ _ _ _ O) in E as (_ & _ & E & _). congruence.
           - intros c p L. rewrite upd_at. destruct (Nat.eqb_spec c h); subst; cbn; apply W; auto. }
      2: destruct O2 as (O2 & N2 & S2).
      all: cbn [rbind]; destruct (tawaiting (tframes m h)) as [p|] eqn:Ea; [|intros H; injection H as <-; split; auto; cbn; try (rewrite N2; cbn); lia].
      all: assert (Lp : p < tnext m) by (eapply (w_wait m Ow); eauto).
      2: clear O1 D; revert m2 O2 N2 S2; intros m2; set (M := m2) in *; clearbody M; clear m2; intros O2 N2 S2.
      1: assert (O2 := O1); assert (N2 : tnext m1 = tnext m1) by auto; assert (S2 : tstack m1 = st) by auto; revert O2 N2 S2; generalize m1 at 1 2 4 5 6 as M; intros M O2 N2 S2.
      all: unfold guard; destruct (talive (tframes M p)); [|discriminate].
      all: destruct (tresume update M h) as [[m3 r]| |] eqn:Er; cbn [rbind]; try discriminate.
      all: assert (O3 : owned m3 /\ tnext m3 = tnext m /\ tstack m3 = st).
      1, 3: apply resume_owned in Er as [->|(v & -> & _)]; [auto|]; split; [|auto]; apply (owned_frames M); auto; try apply O2; intros c; cbn [set_frame tframes]; rewrite upd_at; destruct (Nat.eqb_spec c h); subst; cbn; auto.
      all: destruct O3 as (O3 & N3 & S3); destruct (tcode (tframes m3 p)) as [|c0 k|]; try discriminate; intros H; injection H as <-; split; [|cbn; lia].
      all: apply (owned_frames m3); auto; cbn [set_stack set_frame tnext tvars tstack ttimers tdestroyed tframes]; rewrite ?S3; auto; try apply O3.
      all: try (rewrite N3; intros g [<-|X]; auto).
      all: intros c; rewrite upd_at; destruct (Nat.eqb_spec c p); subst; cbn; auto. }
    destruct b as [v|e|k|x k|o k].
    + apply FIN.
    + destruct update; [discriminate|]. apply FIN.
    + intros H. injection H as <-. split; [|auto]. apply (owned_frames m); auto; cbn [tframes tnext tvars tstack ttimers set_frame]; auto.
      * intros g X. apply in_app_iff in X as [X|[<-|[]]]; auto. now apply (w_timers m Ow).
      * intros c. rewrite upd_at. destruct (Nat.eqb_spec c h); subst; cbn; auto.
    + destruct (tvars m x) as [c|] eqn:Ev; [|discriminate]. destruct (talive (tframes m c)) eqn:Al; [|discriminate]. destruct (tawaiting (tframes m c)) as [|] eqn:Ea; [discriminate|]. destruct (tdone (tframes m c)).
      * destruct (tresume update m c) as [[m1 r]| |] eqn:Er; cbn [rbind]; try discriminate. intros H. injection H as <-.
        assert (O1 : owned m1 /\ tnext m1 = tnext m). { apply resume_owned in Er as [->|(v & -> & _)]; [auto|]. split; [|auto]. apply (owned_frames m); auto; try apply Ow. intros g. cbn [set_frame tframes]. rewrite upd_at. destruct (Nat.eqb_spec g c); subst; cbn; auto. }
        destruct O1 as [O1 N1]. split; [|cbn; lia]. apply (owned_frames m1); auto; try apply O1. intros g. cbn [set_frame tframes]. rewrite upd_at. destruct (Nat.eqb_spec g h); subst; cbn; auto.
      * intros H. injection H as <-. split; [|auto]. apply (owned_frames m); auto; cbn [tframes tnext tvars tstack ttimers set_frame set_stack tdestroyed]; auto; try apply Ow.
        intros g. rewrite !upd_at. assert (J : forall a b q, a = true -> a = true /\ b = b :> bool /\ (Some h = q \/ exists h0, Some h = Some h0 /\ h0 < tnext m)) by eauto 6. destruct (Nat.eqb_spec g h) as [Eg|Ng]; [rewrite Eg; cbn [with_code talive towned tawaiting]; destruct (Nat.eqb_spec h c) as [Ec'|Nc']; cbn; [|auto]; rewrite <- Ec' in *; rewrite Ah; auto|destruct (Nat.eqb_spec g c) as [->|]; cbn; [rewrite Al|]; auto].
    + destruct (tstmt update m o) as [[[m1 r] a]| |] eqn:E; cbn [rbind]; try discriminate. intros H. injection H as <-. destruct (stmt_owned _ _ _ _ _ Ow E) as (O1 & S1 & N1). split; [|cbn; lia].
      apply (owned_frames (set_stack m1 (a ++ tstack m))); auto; cbn [set_stack set_frame tnext tvars tstack ttimers tdestroyed tframes]; rewrite <- ?Es; auto; try apply O1.
      intros g. rewrite upd_at. destruct (Nat.eqb_spec g h); subst; cbn; auto.
  - intros H. destruct (tassign m x c) as [m1| |] eqn:E; cbn [rbind] in H; try discriminate. injection H as <-. unfold tassign in E. destruct (tfree m x) as [m2| |] eqn:F; cbn [rbind] in E; try discriminate. injection E as <-.
    destruct (free_owned _ _ _ Ow F) as ([O S T W] & V1 & _ & S1 & N1 & T1 & _). split; [|cbn; lia]. rewrite S1, Es in *. cbn in O, S. constructor; cbn [set_stack set_var tframes tnext tvars tstack ttimers tdestroyed]; auto. eapply own_ext; [| |eapply own_assign; [exact O|exact V1]]; reflexivity.
  - intros H. injection H as <-. split; [|auto]. apply (owned_frames m); auto; try apply Ow; cbn; rewrite ?Es; auto. intros g X. apply (w_stack m Ow). rewrite Es. exact X.
  - destruct (tstmt update m o) as [[[m1 r] a]| |] eqn:E; cbn [rbind]; try discriminate. intros H. injection H as <-. destruct (stmt_owned _ _ _ _ _ Ow E) as (O1 & S1 & N1). split; [|cbn; lia].
    apply (owned_frames (set_stack m1 (a ++ tstack m))); auto; cbn [set_stack tnext tvars tstack ttimers tdestroyed tframes]; rewrite ?Es, ?assigned_app, ?coros_app; auto; try apply O1. intros g X. apply (w_stack _ O1). cbn [set_stack tstack]. rewrite Es, coros_app. exact X.
  - destruct (nth_error (ttimers m) n) as [h|] eqn:En.
    + unfold guard. destruct (talive (tframes m h)); [|discriminate]. intros H. injection H as <-. split; [|auto]. assert (Cs : forall g, In g (coros st) -> g < tnext m) by (intros g X; apply (w_stack m Ow); rewrite Es; cbn; auto).
      apply (owned_frames m); auto; cbn [tnext tvars tstack ttimers tdestroyed tframes]; rewrite ?Es; auto.
      * intros g [<-|X]; auto. apply (w_timers m Ow). eapply nth_error_In; eauto.
      * intros g X. apply (w_timers m Ow). apply in_app_iff in X as [X|X]; [|]; rewrite <- (firstn_skipn n (ttimers m)); apply in_app_iff; [now left|right].
        rewrite (skipn_nth _ _ _ En). now right.
    + intros H. injection H as <-. split; [|auto]. apply (owned_frames m); auto; try apply Ow; cbn; rewrite ?Es; auto. intros g X. apply (w_stack m Ow). rewrite Es. exact X.
Qed.
End Step.

(** ** Careful programs *)
(** Frames, their number, those that execute, those that wait for an event *)
Record live (fr : nat -> tframe) (nx : nat) (cs ts : list nat) : Prop := Live {
  v_cs : NoDup cs;
  v_run : forall h, In h cs -> h < nx /\ talive (fr h) = true /\ exists b, tcode (fr h) = TRun b;
  v_ts : NoDup ts;
  v_timer : forall h, In h ts -> h < nx /\ talive (fr h) = true /\ (exists b, tcode (fr h) = TRun b) /\ ~ In h cs;
  v_sched : forall c b, c < nx -> tcode (fr c) = TRun b -> In c cs \/ In c ts;
  v_wait : forall p c k, p < nx -> tcode (fr p) = TWait c k -> c < nx /\ talive (fr c) = true /\ tcode (fr c) <> TDone /\ tawaiting (fr c) = Some p;
  v_await : forall c p, c < nx -> tcode (fr c) <> TDone -> tawaiting (fr c) = Some p -> p < nx /\ talive (fr p) = true /\ exists k, tcode (fr p) = TWait c k;
  v_dead : forall c, c < nx -> talive (fr c) = false -> tcode (fr c) = TDone;
  v_done : forall c, c < nx -> (tcode (fr c) = TDone <-> tresult (fr c) <> None) }.

Lemma live_same fr fr' nx cs ts : live fr nx cs ts ->
  (forall c, tcode (fr' c) = tcode (fr c) /\ tawaiting (fr' c) = tawaiting (fr c) /\ tresult (fr' c) = tresult (fr c) /\ (talive (fr' c) = talive (fr c) \/ tcode (fr c) = TDone)) -> live fr' nx cs ts.
Proof.
  intros [H1 H2 H3 H4 H5 H6 H7 H8 H9] F.
  assert (C : forall c, tcode (fr' c) = tcode (fr c)) by (intros; apply F). assert (A : forall c, tawaiting (fr' c) = tawaiting (fr c)) by (intros; apply F). assert (R : forall c, tresult (fr' c) = tresult (fr c)) by (intros; apply F).
  assert (L : forall c, tcode (fr c) <> TDone -> talive (fr' c) = talive (fr c)) by (intros c N; destruct (F c) as (_ & _ & _ & [X|X]); [auto|congruence]).
  constructor; auto.
  - intros h X. destruct (H2 _ X) as (a & b & d & D). rewrite C, L by congruence. eauto.
  - intros h X. destruct (H4 _ X) as (a & b & (d & D) & e). rewrite C, L by congruence. eauto.
  - intros c b Lc. rewrite C. eauto.
  - intros p c k Lp. rewrite C. intros E. destruct (H6 _ _ _ Lp E) as (a & b & d & e). rewrite C, A, L by auto. auto.
  - intros c p Lc. rewrite C, A. intros N E. destruct (H7 _ _ Lc N E) as (a & b & k & D). rewrite C, L by congruence. eauto.
  - intros c Lc Al. rewrite C. destruct (F c) as (_ & _ & _ & [X|X]); auto. apply H8; congruence.
  - intros c Lc. rewrite C, R. auto.
Qed.
Ltac at_ x h := rewrite ?(upd_at _ h _ x) in *; destruct (Nat.eqb_spec x h).
Lemma live_start fr nx cs ts b : live fr nx cs ts -> live (upd fr nx (new_tframe b)) (Datatypes.S nx) (nx :: cs) ts.
Proof.
  intros [H1 H2 H3 H4 H5 H6 H7 H8 H9].
  constructor; auto.
  - constructor; auto. intros X. apply H2 in X. lia.
  - intros h [<-|X]; [rewrite upd_eq; cbn; eauto|]. destruct (H2 _ X) as (a & ?). rewrite upd_ne by lia. auto.
  - intros h X. destruct (H4 _ X) as (a & ? & ? & N). rewrite upd_ne by lia. repeat split; auto. intros [<-|Y]; [lia|auto].
  - intros c b0 L E. destruct (Nat.eq_dec c nx) as [->|N]; [left; now left|]. rewrite upd_ne in E by auto. destruct (H5 c b0 ltac:(lia) E); cbn; auto.
  - intros p c k L E. destruct (Nat.eq_dec p nx) as [->|N]; [rewrite upd_eq in E; discriminate|]. rewrite upd_ne in E by auto. destruct (H6 p c k ltac:(lia) E) as (a & ?). rewrite upd_ne by lia. auto.
  - intros c p L. destruct (Nat.eq_dec c nx) as [->|N]; [rewrite upd_eq; discriminate|]. rewrite upd_ne by auto. intros X Y. destruct (H7 c p ltac:(lia) X Y) as (a & ?). rewrite upd_ne by lia. auto.
  - intros c L. destruct (Nat.eq_dec c nx) as [->|N]; [rewrite upd_eq; discriminate|]. rewrite upd_ne by auto. apply H8. lia.
  - intros c L. destruct (Nat.eq_dec c nx) as [->|N]; [rewrite upd_eq; cbn; split; congruence|]. rewrite upd_ne by auto. apply H9. lia.
Qed.
(** The running coroutine goes on. *)
Lemma live_run fr nx cs ts h b : live fr nx cs ts -> In h cs -> live (upd fr h (with_code (fr h) (TRun b))) nx cs ts.
Proof.
  intros [H1 H2 H3 H4 H5 H6 H7 H8 H9] I. destruct (H2 _ I) as (Lh & Ah & b0 & Eh).
  assert (Al : forall c, talive (upd fr h (with_code (fr h) (TRun b)) c) = talive (fr c)) by (intros c; rewrite upd_at; destruct (Nat.eqb_spec c h); subst; auto).
  assert (Aw : forall c, tawaiting (upd fr h (with_code (fr h) (TRun b)) c) = tawaiting (fr c)) by (intros c; rewrite upd_at; destruct (Nat.eqb_spec c h); subst; auto).
  assert (Re : forall c, tresult (upd fr h (with_code (fr h) (TRun b)) c) = tresult (fr c)) by (intros c; rewrite upd_at; destruct (Nat.eqb_spec c h); subst; auto).
  assert (Cd : forall c, tcode (upd fr h (with_code (fr h) (TRun b)) c) = if c =? h then TRun b else tcode (fr c)) by (intros c; rewrite upd_at; destruct (Nat.eqb_spec c h); subst; auto).
  constructor; auto; intros *; rewrite ?Al, ?Aw, ?Re, ?Cd.
  - intros X. destruct (H2 _ X) as (a & d & e). repeat split; auto. destruct (h0 =? h); eauto.
  - intros X. destruct (H4 _ X) as (a & d & e & f). repeat split; auto. destruct (h0 =? h); eauto.
  - intros L. destruct (Nat.eqb_spec c h) as [->|N]; eauto.
  - intros L. destruct (Nat.eqb_spec p h) as [->|N]; [discriminate|]. intros E. destruct (H6 _ _ _ L E) as (a & d & e & f). repeat split; auto. destruct (c =? h); [discriminate|auto].
  - intros L X Y. assert (X' : tcode (fr c) <> TDone) by (destruct (Nat.eqb_spec c h); [subst; congruence|auto]). destruct (H7 _ _ L X' Y) as (a & d & k & e). repeat split; auto. exists k. destruct (Nat.eqb_spec p h); [subst; congruence|auto].
  - intros L X. apply H8 in X as Y; auto. destruct (Nat.eqb_spec c h); [subst; congruence|auto].
  - intros L. rewrite <- (H9 c L). destruct (Nat.eqb_spec c h); [subst; rewrite Eh; split; discriminate|tauto].
Qed.
Lemma live_timer fr nx cs ts h : live fr nx (h :: cs) ts -> live fr nx cs (ts ++ [h]).
Proof.
  intros [H1 H2 H3 H4 H5 H6 H7 H8 H9]. inversion H1; subst. destruct (H2 h (or_introl eq_refl)) as (Lh & Ah & Eh). constructor; auto.
  - intros g X. apply H2. now right.
  - apply nodup_snoc; auto. intros X. apply H4 in X. cbn in X. tauto.
  - intros g X. apply in_app_iff in X as [X|[<-|[]]]; [|auto]. destruct (H4 _ X) as (a & b & c & d). cbn in d. tauto.
  - intros c b L E. destruct (H5 c b L E) as [[<-|X]|X]; rewrite ?in_app_iff; cbn; auto.
Qed.
Lemma live_fire fr nx cs ts n h : live fr nx cs ts -> nth_error ts n = Some h -> live fr nx (h :: cs) (firstn n ts ++ skipn (Datatypes.S n) ts).
Proof.
  intros [H1 H2 H3 H4 H5 H6 H7 H8 H9] E. assert (E' : ts = firstn n ts ++ h :: skipn (Datatypes.S n) ts) by (rewrite <- (skipn_nth _ _ _ E); symmetry; apply firstn_skipn). set (a := firstn n ts) in *. set (b := skipn (Datatypes.S n) ts) in *. clearbody a b. subst ts.
  pose proof (NoDup_remove _ _ _ H3) as [N1 N2]. destruct (H4 h) as (Lh & Ah & Eh & Nh); [apply in_app_iff; cbn; auto|]. constructor; auto.
  - constructor; auto.
  - intros g [<-|X]; auto.
  - intros g X. destruct (H4 g) as (x & y & z & w); [rewrite in_app_iff in *; cbn; tauto|]. repeat split; auto. intros [<-|Y]; tauto.
  - intros c b0 L X. destruct (H5 c b0 L X) as [Y|Y]; [left; now right|]. rewrite in_app_iff in *. cbn in *. intuition.
Qed.
Lemma live_wait fr fr' nx cs ts h c k : live fr nx (h :: cs) ts -> c < nx -> talive (fr c) = true -> tcode (fr c) <> TDone -> tawaiting (fr c) = None ->
  (forall g, talive (fr' g) = talive (fr g) /\ tresult (fr' g) = tresult (fr g) /\ tawaiting (fr' g) = (if g =? c then Some h else tawaiting (fr g)) /\ tcode (fr' g) = (if g =? h then TWait c k else tcode (fr g))) -> live fr' nx cs ts.
Proof.
  intros [H1 H2 H3 H4 H5 H6 H7 H8 H9] Lc Ac Dc Wc F. inversion H1 as [|? ? N1 N2]; subst. destruct (H2 h (or_introl eq_refl)) as (Lh & Ah & b & Eh).
  assert (Al : forall g, talive (fr' g) = talive (fr g)) by (intros; apply F). assert (Re : forall g, tresult (fr' g) = tresult (fr g)) by (intros; apply F).
  assert (Aw : forall g, tawaiting (fr' g) = if g =? c then Some h else tawaiting (fr g)) by (intros; apply F). assert (Cd : forall g, tcode (fr' g) = if g =? h then TWait c k else tcode (fr g)) by (intros; apply F).
  constructor; auto; intros *; rewrite ?Al, ?Re, ?Aw, ?Cd.
  - intros X. destruct (H2 h0 (or_intror X)) as (x & y & z). repeat split; auto. destruct (Nat.eqb_spec h0 h); [subst; tauto|auto].
  - intros X. destruct (H4 _ X) as (x & y & z & w). cbn in w. repeat split; auto. destruct (Nat.eqb_spec h0 h); [subst; tauto|auto].
  - intros L. destruct (Nat.eqb_spec c0 h); [discriminate|]. intros X. destruct (H5 _ _ L X) as [[Y|Y]|Y]; auto. congruence.
  - intros L. destruct (Nat.eqb_spec p h) as [->|N].
    + intros X. injection X as <- <-. rewrite Nat.eqb_refl. repeat split; auto. destruct (c =? h); [discriminate|auto].
    + intros X. destruct (H6 _ _ _ L X) as (x & y & z & w). repeat split; auto; [destruct (c0 =? h); [discriminate|auto]|]. destruct (Nat.eqb_spec c0 c); [subst; congruence|auto].
  - intros L X Y. destruct (Nat.eqb_spec c0 c) as [->|N].
    + injection Y as <-. repeat split; auto. exists k. now rewrite Nat.eqb_refl.
    + assert (X' : tcode (fr c0) <> TDone) by (destruct (Nat.eqb_spec c0 h); [subst; congruence|auto]). destruct (H7 _ _ L X' Y) as (x & y & k' & z). repeat split; auto. exists k'. destruct (Nat.eqb_spec p h); [subst; congruence|auto].
  - intros L X. specialize (H8 _ L X). destruct (Nat.eqb_spec c0 h); [subst; congruence|auto].
  - intros L. rewrite <- (H9 _ L). destruct (Nat.eqb_spec c0 h); [subst; rewrite Eh; split; discriminate|tauto].
Qed.
(** The end of a coroutine, which resumes the one that awaits it *)
Lemma live_finish fr fr' nx cs ts h : live fr nx (h :: cs) ts ->
  (forall g, tawaiting (fr' g) = tawaiting (fr g) /\ (g <> h -> talive (fr' g) = talive (fr g)) /\ (tresult (fr' g) <> None <-> g = h \/ tresult (fr g) <> None)) ->
  match tawaiting (fr h) with
  | None => (forall g, tcode (fr' g) = if g =? h then TDone else tcode (fr g)) -> live fr' nx cs ts
  | Some p => forall b, (forall g, tcode (fr' g) = if g =? h then TDone else if g =? p then TRun b else tcode (fr g)) -> live fr' nx (p :: cs) ts
  end.
Proof.
  intros [H1 H2 H3 H4 H5 H6 H7 H8 H9] F. inversion H1 as [|? ? N1 N2]; subst. destruct (H2 h (or_introl eq_refl)) as (Lh & Ah & b0 & Eh).
  assert (Al : forall g, g <> h -> talive (fr' g) = talive (fr g)) by (intros; now apply F). assert (Re : forall g, tresult (fr' g) <> None <-> g = h \/ tresult (fr g) <> None) by (intros; apply F). assert (Aw : forall g, tawaiting (fr' g) = tawaiting (fr g)) by (intros; apply F).
  destruct (tawaiting (fr h)) as [p|] eqn:Ea.
  - intros b Cd. destruct (H7 h p Lh ltac:(congruence) Ea) as (Lp & Ap & k & Ep). assert (Nph : p <> h) by congruence.
    assert (Np : ~ In p cs) by (intros X; destruct (H2 p (or_intror X)) as (_ & _ & b1 & E1); congruence).
    constructor; auto; intros *; rewrite ?Aw, ?Cd.
    + constructor; auto.
    + intros [<-|X]. { repeat split; auto; [now rewrite Al|]. destruct (Nat.eqb_spec p h); [congruence|]. rewrite Nat.eqb_refl. eauto. }
      destruct (H2 h0 (or_intror X)) as (x & y & z). assert (h0 <> h) by congruence. rewrite Al by auto. repeat split; auto. destruct (Nat.eqb_spec h0 h); [congruence|]. destruct (h0 =? p); eauto.
    + intros X. destruct (H4 _ X) as (x & y & z & w). cbn in w. assert (h0 <> h) by (intros ->; tauto). rewrite Al by auto. repeat split; auto; [destruct (Nat.eqb_spec h0 h); [congruence|]; destruct (h0 =? p); eauto|]. intros [<-|Y]; [|tauto]. destruct z as [? z]. congruence.
    + intros L. destruct (Nat.eqb_spec c h); [discriminate|]. destruct (Nat.eqb_spec c p) as [->|]; [left; now left|]. intros X. destruct (H5 _ _ L X) as [[Y|Y]|Y]; cbn; auto. congruence.
    + intros L. destruct (Nat.eqb_spec p0 h); [discriminate|]. destruct (Nat.eqb_spec p0 p); [discriminate|]. intros X. destruct (H6 _ _ _ L X) as (x & y & z & w). assert (Nc : c <> h) by (intros ->; congruence). rewrite Al by auto. repeat split; auto. destruct (Nat.eqb_spec c h); [congruence|]. destruct (c =? p); [discriminate|auto].
    + intros L X Y. destruct (Nat.eqb_spec c h); [congruence|]. assert (X' : tcode (fr c) <> TDone) by (destruct (Nat.eqb_spec c p); [subst; congruence|auto]). destruct (H7 _ _ L X' Y) as (x & y & k' & z). assert (p0 <> h) by congruence. rewrite Al by auto. repeat split; auto. exists k'. destruct (Nat.eqb_spec p0 h); [congruence|]. destruct (Nat.eqb_spec p0 p); [subst; congruence|auto].
    + intros L X. destruct (Nat.eqb_spec c h); auto. rewrite Al in X by auto. specialize (H8 _ L X). destruct (Nat.eqb_spec c p); [subst; congruence|auto].
    + intros L. rewrite Re, <- (H9 _ L). destruct (Nat.eqb_spec c h); [tauto|]. destruct (Nat.eqb_spec c p); [subst; rewrite Ep; split; [discriminate|intros [|]; congruence]|tauto].
  - intros Cd. constructor; auto; intros *; rewrite ?Aw, ?Cd.
    + intros X. destruct (H2 h0 (or_intror X)) as (x & y & z). assert (h0 <> h) by congruence. rewrite Al by auto. repeat split; auto. destruct (Nat.eqb_spec h0 h); [congruence|auto].
    + intros X. destruct (H4 _ X) as (x & y & z & w). cbn in w. assert (h0 <> h) by (intros ->; tauto). rewrite Al by auto. repeat split; auto. destruct (Nat.eqb_spec h0 h); [congruence|auto].
    + intros L. destruct (Nat.eqb_spec c h); [discriminate|]. intros X. destruct (H5 _ _ L X) as [[Y|Y]|Y]; auto. congruence.
    + intros L. destruct (Nat.eqb_spec p h); [discriminate|]. intros X. destruct (H6 _ _ _ L X) as (x & y & z & w). assert (Nc : c <> h) by (intros ->; congruence). rewrite Al by auto. repeat split; auto. destruct (Nat.eqb_spec c h); [congruence|auto].
    + intros L X Y. destruct (Nat.eqb_spec c h); [congruence|]. destruct (H7 _ _ L X Y) as (x & y & k' & z). assert (p <> h) by congruence. rewrite Al by auto. repeat split; auto. exists k'. destruct (Nat.eqb_spec p h); [congruence|auto].
    + intros L X. destruct (Nat.eqb_spec c h); auto. rewrite Al in X by auto. auto.
    + intros L. rewrite Re, <- (H9 _ L). destruct (Nat.eqb_spec c h); tauto.
Qed.

Definition mlive (m : tmachine) : Prop := live (tframes m) (tnext m) (coros (tstack m)) (ttimers m).

Lemma done_not_running m c : mlive m -> tcode (tframes m c) = TDone -> ~ In c (coros (tstack m)).
Proof. intros L D X. apply (v_run _ _ _ _ L) in X as (_ & _ & b & E). congruence. Qed.
Lemma free_live m x : owned m -> mlive m -> freeable m x -> exists m', tfree m x = Ok m' /\ mlive m' /\ tstack m' = tstack m /\ tnext m' = tnext m.
Proof.
  intros Ow L F. unfold tfree. destruct (tvars m x) as [c|] eqn:E; [|eauto]. specialize (F _ E).
  destruct (o_var _ _ _ _ _ _ (w_own _ Ow) _ _ E) as (_ & A & _). unfold al in A.
  assert (R : running c (tstack m) = false). { destruct (running c (tstack m)) eqn:R; auto. apply running_spec in R. exfalso. revert R. now apply done_not_running. }
  unfold tdestroy, guard. rewrite A, R. cbn [andb negb rbind]. eexists. split; [reflexivity|]. split; [|auto]. unfold mlive. cbn [set_var tframes tnext tstack ttimers]. eapply live_same; [exact L|].
  intros g. rewrite upd_at. destruct (Nat.eqb_spec g c) as [->|]; cbn; auto.
Qed.
Section Live.
Context (update : bool).
Lemma stmt_live m o : owned m -> mlive m -> care m o ->
  match tstmt update m o with UB => False | Throw _ => True | Ok (m', r, a) => live (tframes m') (tnext m') (coros a ++ coros (tstack m)) (ttimers m') end.
Proof.
  intros Ow L. assert (VA : forall x c, tvars m x = Some c -> c < tnext m /\ talive (tframes m c) = true) by (intros x c E; destruct (o_var _ _ _ _ _ _ (w_own _ Ow) _ _ E) as (? & ? & _); auto).
  destruct o as [x b|x y|x|x|x|x|x]; cbn [tstmt care]; intros C.
  - cbn. now apply live_start.
  - unfold tmove. destruct (free_live _ _ Ow L C) as (m1 & -> & L1 & S1 & N1). cbn. unfold mlive in L1. now rewrite S1 in L1.
  - destruct (free_live _ _ Ow L C) as (m1 & -> & L1 & S1 & N1). cbn. unfold mlive in L1. now rewrite S1 in L1.
  - destruct update; [exact I|]. unfold tready. destruct (tvars m x) as [c|] eqn:E; [|exact I]. destruct (VA _ _ E) as [_ ->]. exact L.
  - destruct update; [exact I|]. unfold tget. destruct (tvars m x) as [c|] eqn:E; [|exact I]. destruct (VA _ _ E) as [Lc ->]. cbn [guard]. specialize (C _ E). pose proof (proj1 (v_done _ _ _ _ L c Lc) C) as R. destruct (tresult (tframes m c)) as [[v|e]|] eqn:Er; [| |congruence]; cbn [rbind].
    + cbn. eapply live_same; [exact L|]. intros g. rewrite upd_at. destruct (Nat.eqb_spec g c) as [->|]; cbn; auto.
    + exact L.
  - destruct update; [|exact I]. unfold tis_done. destruct (tvars m x) as [c|] eqn:E; [|congruence]. destruct (VA _ _ E) as [_ ->]. exact L.
  - destruct update; [|exact I]. unfold trelease. destruct (tvars m x) as [c|] eqn:E; [|exact L]. destruct (VA _ _ E) as [_ Ac]. rewrite Ac. cbn. eapply live_same; [exact L|]. intros g. rewrite upd_at. destruct (Nat.eqb_spec g c) as [->|]; cbn; auto.
Qed.
Lemma resume_frames m c m' r : tresume update m c = Ok (m', r) -> same_frames m m' /\ (forall g, talive (tframes m' g) = talive (tframes m g)) /\ tnext m' = tnext m /\ tstack m' = tstack m /\ ttimers m' = ttimers m.
Proof.
  intros E. apply resume_owned in E as [->|(v & -> & _)]; [repeat split; auto|]. split; [|split; [|auto]]; intros g; cbn [set_frame tframes]; rewrite upd_at; destruct (Nat.eqb_spec g c); subst; cbn; auto.
Qed.
(** Without release() all frames stay owned. *)
Definition kept (m : tmachine) : Prop := update = false -> forall c, towned (tframes m c) = true.
Lemma finish_live m h o st b : kept m -> mlive m -> tstack m = ACoro h :: st -> tcode (tframes m h) = TRun b ->
  match tfinish update m h o st with UB => False | Throw _ => True | Ok m' => mlive m' /\ kept m' end.
Proof.
  intros K L Es Ec. unfold mlive in L. rewrite Es in L. cbn [coros flat_map] in L. change (flat_map _ st) with (coros st) in L. cbn [app] in L.
  assert (Nst : ~ In h (coros st)) by (pose proof (v_cs _ _ _ _ L) as X; now inversion X).
  assert (R : running h st = false) by (destruct (running h st) eqn:R; auto; apply running_spec in R; tauto).
  destruct (v_run _ _ _ _ L h (or_introl eq_refl)) as (Lh & Ah & _).
  unfold tfinish. set (m1 := TMachine (upd (tframes m) h _) _ _ _ _ _).
  assert (E2 : exists m2 a, (if towned (tframes m h) then Ok m1 else tdestroy m1 h) = Ok m2 /\ (a = true \/ towned (tframes m h) = false) /\ tnext m2 = tnext m /\ tstack m2 = st /\ ttimers m2 = ttimers m /\
    (forall g, tframes m2 g = if g =? h then TFrame TDone (tawaiting (tframes m h)) (Some o) (taken (tframes m h)) (towned (tframes m h)) a else tframes m g)).
  { destruct (towned (tframes m h)) eqn:Et; [exists m1, true; repeat split; auto; intros g; unfold m1; cbn [tframes]; rewrite Ah; reflexivity|]. unfold tdestroy, guard. unfold m1; cbn [tframes tstack tnext tvars ttimers tdestroyed]; cbv zeta.
    rewrite !upd_eq; cbn [talive tcode tawaiting tresult taken towned]. rewrite Ah, R. cbn [andb negb].
    eexists. exists false. split; [reflexivity|]. repeat split; auto. intros g. cbn [tframes]. rewrite !upd_at. destruct (g =? h); auto. }
  destruct E2 as (m2 & a & -> & Ha & N2 & S2 & T2 & F2). cbn [rbind].
  pose proof (live_finish (tframes m)) as LF.
  assert (K2 : kept m2). { intros U g. rewrite F2. destruct (g =? h); cbn; apply (K U). }
  destruct (tawaiting (tframes m h)) as [p|] eqn:Ea.
  - destruct (v_await _ _ _ _ L h p Lh ltac:(congruence) Ea) as (Lp & Ap & k & Ep). assert (Nph : p <> h) by congruence.
    rewrite (F2 p). destruct (Nat.eqb_spec p h); [congruence|]. rewrite Ap. cbn [guard].
    assert (Ar : update = false -> talive (tframes m2 h) = true). { intros U. rewrite F2, Nat.eqb_refl. cbn. destruct Ha as [->|Ha]; auto. rewrite (K U) in Ha. discriminate. }
    destruct (tresume update m2 h) as [[m3 r]| |] eqn:Er; cbn [rbind].
    + destruct (resume_frames _ _ _ _ Er) as (F3 & A3 & N3 & S3 & T3). destruct (F3 p) as (C3 & _). rewrite C3, (F2 p). destruct (Nat.eqb_spec p h); [congruence|]. rewrite Ep. split.
      2: { intros U g. cbn [set_stack set_frame tframes]. rewrite upd_at. destruct (F3 g) as (_ & _ & _ & W). destruct (Nat.eqb_spec g p) as [->|]; cbn; rewrite W; now apply K2. }
      unfold mlive. cbn [set_stack set_frame tframes tnext tstack ttimers]. rewrite N3, N2, T3, T2. cbn [coros flat_map app]. change (flat_map _ st) with (coros st).
      specialize (LF (upd (tframes m3) p (with_code (tframes m3 p) (TRun (k r)))) _ _ _ _ L). rewrite Ea in LF. apply LF with (k r).
      * intros g. rewrite upd_at. destruct (F3 g) as (_ & W1 & W2 & _). specialize (A3 g). rewrite F2 in *. destruct (Nat.eqb_spec g p) as [->|]; cbn [with_code tawaiting talive tresult].
        -- destruct (Nat.eqb_spec p h); [congruence|]. rewrite W1, W2, A3. repeat split; auto. intros [|]; [congruence|auto].
        -- rewrite W1, W2, A3. destruct (Nat.eqb_spec g h); subst; cbn [tawaiting talive tresult]; repeat split; auto; try congruence; intros [|]; congruence.
      * intros g. rewrite upd_at. destruct (F3 g) as (W0 & _). rewrite F2 in W0. destruct (Nat.eqb_spec g p) as [->|]; [destruct (Nat.eqb_spec p h); [congruence|reflexivity]|]. rewrite W0. destruct (g =? h); reflexivity.
    + exact I.
    + revert Er. unfold tresume. destruct update; [discriminate|]. rewrite Ar by auto. cbn [guard]. rewrite F2, Nat.eqb_refl. cbn [tresult]. destruct o; discriminate.
  - split; [|exact K2]. unfold mlive. rewrite N2, S2, T2. specialize (LF (tframes m2) _ _ _ _ L). rewrite Ea in LF. apply LF.
    + intros g. rewrite F2. destruct (Nat.eqb_spec g h); subst; cbn [tawaiting talive tresult]; repeat split; auto; try congruence; intros [|]; congruence.
    + intros g. rewrite F2. destruct (g =? h); reflexivity.
Qed.
Lemma stmt_kept m o m' r a : kept m -> tstmt update m o = Ok (m', r, a) -> kept m'.
Proof.
  intros K E U. specialize (K U). assert (FR : forall x m1, tfree m x = Ok m1 -> forall c, towned (tframes m1 c) = true).
  { intros x m1. unfold tfree. destruct (tvars m x) as [c|]; [|intros H; now injection H as <-]. destruct (tdestroy m c) as [m2| |] eqn:D; cbn [rbind]; try discriminate. intros H. injection H as <-. apply destroy_inv in D as (_ & _ & ->). intros g. cbn. unfold upd. destruct (g =? c); cbn; auto. }
  rewrite U in E. destruct o as [x b|x y|x|x|x|x|x]; cbn [tstmt] in E; try discriminate.
  - injection E as <- <- <-. intros g. cbn. unfold upd. destruct (g =? tnext m); cbn; auto.
  - unfold tmove in E. destruct (tfree m x) as [m1| |] eqn:F; cbn [rbind] in E; try discriminate. injection E as <- <- <-. cbn. eauto.
  - destruct (tfree m x) as [m1| |] eqn:F; cbn [rbind] in E; try discriminate. injection E as <- <- <-. eauto.
  - destruct (tready m x); cbn [rbind] in E; try discriminate. now injection E as <- <- <-.
  - unfold tget in E. destruct (tvars m x) as [c|]; [|discriminate]. unfold guard in E. destruct (talive (tframes m c)); [|discriminate]. destruct (tresult (tframes m c)) as [[|]|]; cbn [rbind] in E; try discriminate; injection E as <- <- <-; auto. intros g. cbn. unfold upd. destruct (g =? c); cbn; auto.
Qed.
Lemma live_cons_main p st fr nx ts : live fr nx (coros (AMain p :: st)) ts = live fr nx (coros st) ts. Proof. reflexivity. Qed.
Theorem tick_live m : owned m -> mlive m -> kept m -> careful m -> match ttick update m with UB => False | Throw _ => True | Ok m' => mlive m' /\ kept m' end.
Proof.
  intros Ow L K C. unfold ttick, careful in *. destruct (tstack m) as [|[h|x c|[|o k|n k]] st] eqn:Es.
  - auto.
  - pose proof L as L0. unfold mlive in L0. rewrite Es in L0. change (coros (ACoro h :: st)) with (h :: coros st) in L0.
    destruct (v_run _ _ _ _ L0 h (or_introl eq_refl)) as (Lh & Ah & b & Ec). rewrite Ah, Ec in *. cbn [guard].
    destruct b as [v|e|k|x k|o k].
    + eapply finish_live; eauto.
    + destruct update eqn:U; [exact I|]. rewrite <- U. eapply finish_live; eauto.
    + split; [|intros U g; cbn; unfold upd; destruct (g =? h); cbn; now apply K]. unfold mlive. cbn [tframes tnext tstack ttimers set_frame]. apply live_timer. apply live_run; cbn; auto.
    + destruct (tvars m x) as [c|] eqn:Ev; [|exact I]. destruct (o_var _ _ _ _ _ _ (w_own _ Ow) _ _ Ev) as (Lc & Ac & _). unfold al in Ac. rewrite Ac. cbn [guard]. destruct (tawaiting (tframes m c)) eqn:Ea; [exact I|]. unfold tdone. destruct (tcode (tframes m c)) eqn:Ed.
      3: { destruct (tresume update m c) as [[m1 r]| |] eqn:Er; cbn [rbind].
        - destruct (resume_frames _ _ _ _ Er) as (F3 & A3 & N3 & S3 & T3). split.
          + unfold mlive. cbn [set_frame tframes tnext tstack ttimers]. rewrite N3, S3, T3, Es. apply live_run; [|cbn; auto]. eapply live_same; [exact L0|]. intros g. destruct (F3 g) as (? & ? & ? & _). auto.
          + intros U g. cbn [set_frame tframes]. rewrite upd_at. destruct (F3 g) as (_ & _ & _ & W). destruct (Nat.eqb_spec g h) as [->|]; cbn; rewrite W; now apply K.
        - exact I.
        - revert Er. unfold tresume. destruct update; [discriminate|]. rewrite Ac. cbn [guard]. pose proof (proj1 (v_done _ _ _ _ L0 c Lc) Ed). destruct (tresult (tframes m c)) as [[|]|]; congruence. }
      all: split; [|intros U g; cbn [set_stack set_frame tframes]; rewrite !upd_at; destruct (g =? h); cbn [with_code towned]; try destruct (_ =? c); cbn; now apply K].
      all: unfold mlive; cbn [set_stack set_frame tframes tnext tstack ttimers]; apply (live_wait (tframes m) _ _ _ _ h c k L0); auto; [congruence|].
      all: intros g; rewrite !upd_at; destruct (Nat.eqb_spec g h) as [->|]; [|destruct (Nat.eqb_spec g c) as [->|]; cbn; auto].
      all: cbn [with_code tcode talive tresult tawaiting]; destruct (Nat.eqb_spec h c) as [->|]; cbn; auto.
    + pose proof (stmt_live m o Ow L C) as X. destruct (tstmt update m o) as [[[m1 r] a]| |] eqn:E; cbn [rbind]; auto. split.
      * unfold mlive. cbn [set_stack set_frame tframes tnext tstack ttimers]. rewrite coros_app. rewrite Es in X. apply live_run; auto. apply in_app_iff. right. now left.
      * intros U g. cbn [set_stack set_frame tframes]. rewrite upd_at. pose proof (stmt_kept _ _ _ _ _ K E U) as W. destruct (g =? h); cbn; auto.
  - unfold tassign. destruct (free_live _ _ Ow L C) as (m1 & E & L1 & S1 & N1). rewrite E. cbn [rbind]. split.
    + unfold mlive in *. cbn [set_stack set_var tframes tnext tstack ttimers]. rewrite S1, Es in L1. exact L1.
    + intros U g. cbn [set_stack set_var tframes]. assert (E' : tstmt update m (OFree x) = Ok (m1, RUnit, [])) by (cbn [tstmt]; now rewrite E). exact (stmt_kept _ _ _ _ _ K E' U g).
  - split; [|exact K]. unfold mlive in *. rewrite Es in L. exact L.
  - pose proof (stmt_live m o Ow L C) as X. destruct (tstmt update m o) as [[[m1 r] a]| |] eqn:E; cbn [rbind]; auto. split.
    + unfold mlive. cbn [set_stack tframes tnext tstack ttimers]. rewrite coros_app. rewrite Es in X. exact X.
    + exact (stmt_kept _ _ _ _ _ K E).
  - unfold mlive in L. rewrite Es in L. destruct (nth_error (ttimers m) n) as [h|] eqn:En.
    + destruct (v_timer _ _ _ _ L h (nth_error_In _ _ En)) as (_ & -> & _). cbn [guard]. split; [|exact K]. unfold mlive. cbn [tframes tnext tstack ttimers]. apply (live_fire _ _ _ _ _ _ L En).
    + split; [|exact K]. exact L.
Qed.
End Live.

(** ** Chains of waiting coroutines *)
Lemma executes_coros m c : executes m c <-> In c (coros (tstack m)).
Proof. unfold executes, coros. rewrite in_flat_map. split; [intros X; exists (ACoro c); cbn; auto|]. intros ([h| |] & X & Y); cbn in Y; try tauto. destruct Y as [->|[]]; auto. Qed.
Fixpoint it (m : tmachine) (c k : nat) : option nat :=
  match k with O => Some c | Datatypes.S j => match it m c j with Some d => match tcode (tframes m d) with TWait e _ => Some e | _ => None end | None => None end end.
Lemma repeated (l : list nat) : NoDup l \/ exists a l1 l2 l3, l = l1 ++ a :: l2 ++ a :: l3.
Proof.
  induction l as [|x l [IH|(a & l1 & l2 & l3 & ->)]]; [left; constructor| |right; exists a, (x :: l1), l2, l3; reflexivity].
  destruct (in_dec Nat.eq_dec x l) as [X|X]; [right|left; now constructor]. apply in_split in X as (l2 & l3 & ->). exists x, [], l2, l3. reflexivity.
Qed.
Lemma pigeon (f : nat -> nat) n : (forall k, k <= n -> f k < n) -> exists i d, i + Datatypes.S d <= n /\ f i = f (i + Datatypes.S d).
Proof.
  intros B. assert (ND : ~ NoDup (map f (seq 0 (Datatypes.S n)))).
  { intros ND. apply NoDup_incl_length with (l' := seq 0 n) in ND; [rewrite map_length, !seq_length in ND; lia|]. intros x X. apply in_map_iff in X as (k & <- & X). apply in_seq in X. apply in_seq. specialize (B k ltac:(lia)). lia. }
  destruct (repeated (map f (seq 0 (Datatypes.S n)))) as [X|X]; [tauto|]. destruct X as (a & l1 & l2 & l3 & E).
  assert (LE : length l1 + Datatypes.S (length l2) <= n). { apply (f_equal (@length _)) in E. rewrite map_length, seq_length, !app_length in E. cbn in E. rewrite app_length in E. cbn in E. lia. }
  exists (length l1), (length l2). split; auto.
  assert (G : forall i x, nth_error (map f (seq 0 (Datatypes.S n))) i = Some x -> f i = x).
  { intros i x X. assert (Li : i < Datatypes.S n). { assert (Y : nth_error (map f (seq 0 (Datatypes.S n))) i <> None) by congruence; apply nth_error_Some in Y; now rewrite map_length, seq_length in Y. }
    rewrite (map_nth_error f i (seq 0 (Datatypes.S n)) (d := i)) in X; [congruence|]. rewrite (nth_error_nth' _ 0) by (now rewrite seq_length). now rewrite seq_nth. }
  transitivity a; [|symmetry]; apply G; rewrite E.
  - rewrite nth_error_app2, Nat.sub_diag by lia. reflexivity.
  - rewrite nth_error_app2 by lia. replace (length l1 + Datatypes.S (length l2) - length l1) with (Datatypes.S (length l2)) by lia. cbn. rewrite nth_error_app2, Nat.sub_diag by lia. reflexivity.
Qed.
Section Chain.
Context (m : tmachine) (L : mlive m).
Lemma waits_inj p q c : waits_for m p c -> waits_for m q c -> p = q.
Proof. intros [Lp [k E]] [Lq [k' E']]. apply (v_wait _ _ _ _ L) in E as (_ & _ & _ & E); auto. apply (v_wait _ _ _ _ L) in E' as (_ & _ & _ & E'); auto. congruence. Qed.
Lemma it_step c k d : unfinished m c -> it m c k = Some d -> unfinished m d -> 
  (executes m d \/ expects_event m d) \/ exists e, it m c (Datatypes.S k) = Some e /\ waits_for m d e /\ unfinished m e.
Proof.
  intros U E [Ld Nd]. cbn. rewrite E. destruct (tcode (tframes m d)) as [b|e k'|] eqn:C; [left|right|congruence].
  - rewrite executes_coros. eapply (v_sched _ _ _ _ L); eauto.
  - destruct (v_wait _ _ _ _ L _ _ _ Ld C) as (Le & _ & Ne & _). exists e. split; auto. split; [split; eauto|split; auto].
Qed.
Lemma it_chain c k : unfinished m c ->
  (exists d, clos_refl_trans _ (waits_for m) c d /\ (executes m d \/ expects_event m d)) \/
  (exists d, it m c k = Some d /\ unfinished m d /\ clos_refl_trans _ (waits_for m) c d /\ (0 < k -> clos_trans _ (waits_for m) c d)).
Proof.
  intros U. induction k as [|k [IH|(d & E & Ud & R & _)]]; auto.
  - right. exists c. cbn. split; auto. split; auto. split; [apply rt_refl|lia].
  - destruct (it_step c k d U E Ud) as [X|(e & E' & W & Ue)]; [left; eauto|]. right. exists e. split; auto. split; auto.
    assert (T : clos_trans _ (waits_for m) c e). { apply clos_rt_rtn1 in R. clear -R W. apply clos_tn1_trans. revert W. revert e. induction R as [|y z Y R IH]; intros e W; [now constructor|]. eapply Relation_Operators.tn1_trans; [exact W|]. auto. }
    split; auto. clear -T. induction T; [now apply rt_step|eapply rt_trans; eauto].
Qed.
Lemma it_prefix c k j d : it m c k = Some d -> j <= k -> exists e, it m c j = Some e.
Proof. revert d. induction k as [|k IH]; intros d E Lj. - assert (j = 0) by lia. subst. eauto. - destruct (Nat.eq_dec j (Datatypes.S k)) as [->|]; [eauto|]. cbn in E. destruct (it m c k) eqn:E'; [|discriminate]. eapply IH; eauto. lia. Qed.
Theorem chain c : unfinished m c ->
  (exists d, clos_refl_trans _ (waits_for m) c d /\ (executes m d \/ expects_event m d)) \/ clos_trans _ (waits_for m) c c.
Proof.
  intros U. destruct (it_chain c (tnext m) U) as [X|(d & E & _)]; [auto|]. 
  assert (B : forall k, k <= tnext m -> match it m c k with Some e => e | None => 0 end < tnext m).
  { intros k Lk. destruct (it_chain c k U) as [X|(e & -> & [Le _] & _)]; auto. destruct (it_prefix _ _ _ _ E Lk) as [e Ee]. rewrite Ee. clear X. destruct U as [Lc Nc]. revert e Ee. induction k as [|k IH]; intros e Ee; [now injection Ee as <-|].
    cbn in Ee. destruct (it m c k) as [f|] eqn:Ef; [|discriminate]. specialize (IH ltac:(lia) f eq_refl). destruct (tcode (tframes m f)) eqn:C; try discriminate. injection Ee as ->. eapply (v_wait _ _ _ _ L); eauto. }
  apply pigeon in B as (i & n & Ln & Ei). destruct (it_prefix _ _ i _ E ltac:(lia)) as [x Ex]. destruct (it_prefix _ _ (i + Datatypes.S n) _ E ltac:(lia)) as [y Ey]. rewrite Ex, Ey in Ei. subst y.
  assert (C : it m c (Datatypes.S n) = Some c).
  { clear Ln E. assert (V : forall k e, it m c k = Some e -> e < tnext m).
    { destruct U as [Lc _]. induction k as [|k IH]; intros e Ee; [now injection Ee as <-|]. cbn in Ee. destruct (it m c k) as [f|] eqn:Ef; [|discriminate]. specialize (IH f eq_refl). destruct (tcode (tframes m f)) eqn:C; try discriminate. injection Ee as ->. eapply (v_wait _ _ _ _ L); eauto. }
    revert x Ex Ey. induction i as [|i IH]; intros x Ex Ey; [cbn [it] in Ex; injection Ex as <-; exact Ey|].
    cbn [it Nat.add] in Ex, Ey. destruct (it m c i) as [p|] eqn:Ep; [|discriminate]. destruct (it m c (i + Datatypes.S n)) as [q|] eqn:Eq; [|discriminate].
    assert (Epq : p = q). { apply (waits_inj p q x); split; eauto. - destruct (tcode (tframes m p)) eqn:Z; try discriminate. injection Ex as ->. eauto. - destruct (tcode (tframes m q)) eqn:Z; try discriminate. injection Ey as ->. eauto. }
    subst q. apply (IH p eq_refl). reflexivity. }
  destruct (it_chain c (Datatypes.S n) U) as [X|(e & E' & _ & _ & T)]; [auto|]. right. rewrite C in E'. injection E' as <-. apply T. lia.
Qed.
End Chain.
