(** C115: constructing a vector_set from elements. *)
From Coq Require Import ZifyBool ZifyNat Sorted Permutation.
From Verif Require Import Common VSetModel VSetProg VSetSpec VSetTree VSetRotate VSetList VSetLookup VSetOps VSetProofs VSetProps VSetThrowModel VSetThrowProps VSetCtorModel VSetCtorSpec.

Section Spec.
Context {T : Type} (lt : T -> T -> bool) (SW : strict_weak lt).
Notation same := (same lt). Notation leader := (leader lt). Notation set_of := (set_of lt).
Lemma same_sym x y : same x y -> same y x.
Proof. intros [A B]. split; auto. Qed.
Lemma same_trans x y z : same x y -> same y z -> same x z.
Proof. intros [A B] [C D]. split; eapply (sw_incomp _ SW); eauto. Qed.
Lemma same_dec x y : {same x y} + {~ same x y}.
Proof. unfold VSetCtorSpec.same. destruct (lt x y), (lt y x); auto; right; intros [? ?]; discriminate. Qed.
Lemma leader_in vs x : leader vs x -> In x vs.
Proof. intros (p & q & -> & _). apply in_elt. Qed.
Lemma leader_snoc vs v x : leader (vs ++ [v]) x <-> leader vs x \/ (x = v /\ forall y, In y vs -> ~ same x y).
Proof.
  split.
  - intros (p & q & E & H). destruct q as [|z q] using rev_ind.
    + apply app_inj_tail in E as [-> ->]. right. auto.
    + clear IHq. rewrite app_comm_cons, app_assoc in E. apply app_inj_tail in E as [-> ->]. left. exists p, q. auto.
  - intros [(p & q & -> & H)|[-> H]].
    + exists p, (q ++ [v]). rewrite <- app_assoc. auto.
    + exists vs, []. auto.
Qed.
Lemma leader_exists vs : forall y, In y vs -> exists x, leader vs x /\ same y x.
Proof.
  induction vs as [|v vs IH] using rev_ind; intros y Hy; [destruct Hy|]. apply in_app_iff in Hy as [Hy|[<-|[]]].
  - destruct (IH y Hy) as (x & L & S). exists x. split; auto. apply leader_snoc. auto.
  - destruct (List.Exists_dec (same v) vs (same_dec v)) as [He|Hn].
    + apply Exists_exists in He as (y & Hy & S). destruct (IH y Hy) as (x & L & S'). exists x. split; [apply leader_snoc; auto|]. eapply same_trans; eauto.
    + exists v. split; [|split; apply (sw_irrefl _ SW)]. apply leader_snoc. right. split; auto. intros y Hy S. apply Hn, Exists_exists. eauto.
Qed.
Lemma eqvT_same v x : eqvT lt v x = true <-> same v x.
Proof. unfold eqvT, VSetCtorSpec.same. destruct (lt v x), (lt x v); cbn; intuition congruence. Qed.
(** One insertion *)
Lemma insert_set_of vs n l v : set_of vs (elems l) ->
  let (ss', r) := sinsert lt false v (n, l) in
  (forall x, In x (elems (snd ss')) <-> leader (vs ++ [v]) x) /\ (snd r = true <-> forall y, In y vs -> ~ same v y).
Proof.
  intros [_ H]. unfold sinsert. cbn [fst snd]. pose proof (lookup_exists (eqvT lt v) l) as [L1 L2]. destruct (lookup (eqvT lt v) l) as [[h w]|] eqn:E; cbn [fst snd].
  - destruct L1 as [Hin Heq]. cbn [snd] in Heq. apply eqvT_same in Heq. assert (Hw : In w vs).
    { apply leader_in, H. unfold elems. apply in_map_iff. exists (h, w). auto. }
    split.
    + intros x. rewrite leader_snoc, H. split; auto. intros [?|[-> Hy]]; auto. exfalso. exact (Hy w Hw Heq).
    + split; [discriminate|]. intros Hy. exfalso. exact (Hy w Hw Heq).
  - assert (Hn : forall y, In y vs -> ~ same v y).
    { intros y Hy S. destruct (leader_exists vs y Hy) as (x & L & S'). apply H in L. enough (existsb (eqvT lt v) (elems l) = true) by congruence.
      apply existsb_exists. exists x. split; auto. apply eqvT_same. eapply same_trans; eauto. }
    split; [|tauto]. intros x. rewrite leader_snoc, <- H. unfold sins, elems. rewrite map_app, in_app_iff. cbn [map snd In]. split.
    + intros [Hx|[<-|Hx]]; auto; apply in_map_iff in Hx as (e & <- & Hf); apply filter_In in Hf as [Hf _]; left; apply in_map; auto.
    + intros [Hx|[-> _]]; auto. apply in_map_iff in Hx as (e & <- & He). destruct (lt (snd e) v) eqn:D; [left|right; right]; apply in_map, filter_In; rewrite D; auto.
Qed.
Lemma set_of_ext vs vs' l l' : (forall x y, same x y -> x = y) -> (forall x, In x vs <-> In x vs') -> set_of vs l -> set_of vs' l' -> l = l'.
Proof.
  intros Tot E [S H] [S' H']. assert (M : forall us x, leader us x <-> In x us).
  { intros us x. split; [apply leader_in|]. intros Hx. destruct (leader_exists us x Hx) as (y & L & Sy). now rewrite (Tot _ _ Sy). }
  assert (Q : forall x, In x l <-> In x l') by (intros x; now rewrite H, H', !M). clear H H' E M. revert l' S' Q. induction S as [|a l S IH F]; intros l' S' Q.
  - destruct l' as [|b l']; auto. exfalso. apply (Q b). now left.
  - destruct S' as [|b l' S' F']; [exfalso; apply (Q a); now left|]. assert (a = b).
    { destruct (proj1 (Q a)) as [|Ha]; [now left|congruence|]. destruct (proj2 (Q b)) as [|Hb]; [now left|congruence|]. rewrite Forall_forall in F, F'.
      pose proof (sw_trans _ SW _ _ _ (F b Hb) (F' a Ha)) as X. now rewrite (sw_irrefl _ SW) in X. }
    subst b. f_equal. apply IH; auto. rewrite Forall_forall in F, F'. intros x. split; intros Hx.
    + destruct (proj1 (Q x)) as [<-|]; auto; [now right|]. pose proof (F a Hx) as X. now rewrite (sw_irrefl _ SW) in X.
    + destruct (proj2 (Q x)) as [<-|]; auto; [now right|]. pose proof (F' a Hx) as X. now rewrite (sw_irrefl _ SW) in X.
Qed.
End Spec.

Section Ctor.
Context {T : Type} (lt : T -> T -> bool) (SW : strict_weak lt).
Notation same := (same lt). Notation leader := (leader lt). Notation set_of := (set_of lt). Notation Rel := (Rel lt).
Definition pre (user : bool) : nat := if user then 1 else 0.
Lemma pre_eq (user : bool) (s : st T) L o : (if user then @may_throw T else @tret T unit tt) (W s L o) = let (b, o1) := ticks (pre user) o in if b then TExn (W s L o1) None else TOk (W s L o1) tt.
Proof. destruct user; [|reflexivity]. unfold may_throw. cbn. destruct o as [|[|] o]; reflexivity. Qed.
(** The whole loop *)
Lemma each_out user vs : forall us s n l, Rel s (n, l) -> set_of us (elems l) ->
  exists s' n' l', Rel s' (n', l') /\ set_of (us ++ vs) (elems l') /\ insert_all lt vs s = Ok (s', tt) /\
  (exists d, forall L o, each_t lt user vs (W s L (repeat false d ++ o)) = TOk (W s' L o) tt) /\
  (forall L o, exists o1, each_t lt user vs (W s L o) = TOk (W s' L o1) tt \/
     exists p q s1 L1 n1 l1, vs = p ++ q /\ each_t lt user vs (W s L o) = TExn (W s1 L1 o1) None /\
       Rel s1 (n1, l1) /\ set_of (us ++ p) (elems l1) /\ L <= L1 <= S L /\ (user = true \/ q <> [])) /\
  (forall p v q, vs = p ++ v :: q -> (forall y, In y (us ++ p) -> ~ same v y) -> exists d s1 n1 l1, Rel s1 (n1, l1) /\ set_of (us ++ p) (elems l1) /\
     forall L o, each_t lt user vs (W s L (repeat false d ++ true :: o)) = TExn (W s1 (S L) o) None).
Proof.
  induction vs as [|v vs IH]; intros us s n l R Hs; cbn [each_t insert_all].
  - exists s, n, l. rewrite app_nil_r. split; auto. split; auto. split; [reflexivity|]. split; [|split].
    + exists (pre user). intros L o. unfold tbind. now rewrite pre_eq, ticks_false.
    + intros L o. unfold tbind. rewrite pre_eq. destruct (ticks (pre user) o) as [[|] o1] eqn:E; exists o1; auto. right. exists [], [], s, L, n, l.
      rewrite (app_nil_r us). split; [reflexivity|]. split; [reflexivity|]. split; [exact R|]. split; [exact Hs|]. split; [lia|]. left. destruct user; auto. discriminate E.
    + intros p w q E. destruct p; discriminate.
  - pose proof (insert_t_out lt SW s (n, l) v R) as Hi. pose proof (insert_set_of lt SW us n l v Hs) as Hso. destruct (sinsert lt false v (n, l)) as [[n1 l1] r].
    destruct Hi as (s1 & E1 & R1 & ((d1 & D1) & O1) & K1). cbn [fst snd] in *. destruct Hso as [Hm Hnew].
    assert (Hs1 : set_of (us ++ [v]) (elems l1)) by (split; [exact (proj2 (to_list_rel lt s1 _ R1))|exact Hm]).
    destruct (IH (us ++ [v]) s1 n1 l1 R1 Hs1) as (s2 & n2 & l2 & R2 & Hs2 & E2 & (d2 & D2) & O2 & K2). rewrite <- app_assoc in Hs2. cbn [app] in Hs2.
    exists s2, n2, l2. split; auto. split; auto. split; [rewrite (bind_ok _ _ _ _ _ E1); exact E2|]. split; [|split].
    + exists (pre user + (d1 + d2)). intros L o. rewrite !repeat_app, <- !app_assoc. unfold tbind. now rewrite pre_eq, ticks_false, D1.
    + intros L o. unfold tbind. rewrite pre_eq. destruct (ticks (pre user) o) as [[|] o0] eqn:E0.
      { exists o0. right. exists [], (v :: vs), s, L, n, l. rewrite (app_nil_r us). repeat split; auto; try apply Hs; try lia. right. discriminate. }
      destruct (O1 L o0) as (o1 & [H|(s3 & L1 & n3 & H & R3 & Hn & HL)]); rewrite H.
      * destruct (O2 L o1) as (o2 & [H2|(p & q & s3 & L1 & n3 & l3 & Ep & H2 & R3 & Hp & HL & Hq)]); exists o2; [now left|right].
        exists (v :: p), q, s3, L1, n3, l3. rewrite <- app_assoc in Hp. cbn [app] in *. rewrite <- Ep. repeat split; auto; try apply Hp; lia.
      * exists o1. right. exists [], (v :: vs), s3, L1, n3, l. rewrite (app_nil_r us). repeat split; auto; try apply Hs; try lia. right. discriminate.
    + intros p w q Ep Hw. destruct p as [|v' p]; cbn [app] in Ep; injection Ep as <- Ep.
      * rewrite app_nil_r in *. destruct (K1 (proj2 Hnew Hw)) as (d & s3 & R3 & H). exists (pre user + d), s3, (S n), l. split; auto. split; auto.
        intros L o. rewrite repeat_app, <- app_assoc. unfold tbind. now rewrite pre_eq, ticks_false, H.
      * destruct (K2 p w q Ep) as (d & s3 & n3 & l3 & R3 & Hp & H). { intros y Hy. apply Hw. rewrite <- app_assoc in Hy. exact Hy. }
        rewrite <- app_assoc in Hp. exists (pre user + (d1 + d)), s3, n3, l3. split; auto. split; auto.
        intros L o. rewrite !repeat_app, <- !app_assoc. unfold tbind. now rewrite pre_eq, ticks_false, D1, H.
Qed.
Lemma sorted_nodup_ctor l : StronglySorted (fun x y => lt x y = true) l -> NoDup l.
Proof.
  induction 1 as [|x l S IH F]; constructor; auto. intros Hx. rewrite Forall_forall in F. pose proof (F x Hx) as X. now rewrite (sw_irrefl _ SW) in X.
Qed.
Lemma set_of_nil : set_of [] [].
Proof. split; [constructor|]. intros x. split; [intros []|]. intros ([|? p] & q & E & _); discriminate. Qed.
(** How many nodes exist: those of the set *)
Lemma live_elems s n l : Rel s (n, l) -> live s = length (elems l).
Proof. intros R. rewrite (live_rel lt s _ R). unfold elems. now rewrite map_length. Qed.
Lemma run_inserts {K} (a : K -> T -> bool) (b : T -> K -> bool) i vs : forall e s s', e i = Some s -> insert_all lt vs s = Ok (s', tt) ->
  exists e' os, vrun lt a b e (map (VInsert i) vs) = Ok (e', os) /\ e' i = Some s' /\ forall j, j <> i -> e' j = e j.
Proof.
  induction vs as [|v vs IH]; intros e s s' Ei E; cbn [insert_all map vrun vstep] in *.
  - injection E as <-. exists e, []. auto.
  - unfold bind in E. unfold on. rewrite Ei. destruct (insert lt v s) as [[s1 r]|x|]; try discriminate. cbn [rbind].
    destruct (IH (upd e i (Some s1)) s1 s' (upd_eq _ _ _) E) as (e' & os & H & He & Hj). rewrite H. cbn [rbind]. exists e'. eexists. split; [reflexivity|]. split; auto.
    intros j Hij. rewrite (Hj j Hij). now apply upd_neq.
Qed.
(** C115: if nothing throws, both constructors make the same set as the insertion of the elements one after the other into an empty set;
    it has, in their order, the elements that are the first of their equals, and as many nodes. *)
Theorem vset_ctor_ok vs : exists s l, set_of vs l /\ to_list s = Ok (s, l) /\ live s = length l /\
  (exists d, forall L a, ctor_init lt vs L (repeat false d ++ a) = Ok (Some s, L, a)) /\
  (exists d, forall L a, ctor_range lt vs L (repeat false d ++ a) = Ok (Some s, L, a)) /\
  forall K (ltKT : K -> T -> bool) (ltTK : T -> K -> bool) i, exists e os,
    vrun lt ltKT ltTK vinit (VNew i :: map (VInsert i) vs) = Ok (e, os) /\ e i = Some s /\ forall j, j <> i -> e j = None.
Proof.
  destruct (each_out false vs [] empty_st 0 [] (empty_rel lt) set_of_nil) as (s & n & l & R & Hs & E & (d1 & D1) & _).
  destruct (each_out true vs [] empty_st 0 [] (empty_rel lt) set_of_nil) as (s' & n' & l' & _ & _ & E' & (d2 & D2) & _).
  rewrite E in E'. injection E' as <-. exists s, (elems l). split; [exact Hs|]. split; [exact (proj1 (to_list_rel lt s _ R))|]. split; [exact (live_elems _ _ _ R)|].
  split; [|split].
  - exists d1. intros L a. unfold ctor_init. now rewrite D1.
  - exists d2. intros L a. unfold ctor_range. now rewrite D2.
  - intros K a b i. destruct (run_inserts a b i vs (upd vinit i (Some empty_st)) empty_st s (upd_eq _ _ _) E) as (e & os & H & He & Hj).
    cbn [vrun vstep vinit]. cbn [rbind]. rewrite H. cbn [rbind]. exists e. eexists. split; [reflexivity|]. split; auto. intros j Hij. rewrite (Hj j Hij). now rewrite upd_neq.
Qed.
(** C115: if equivalent elements are equal, neither the order of the elements nor their repetition matters. *)
Theorem vset_ctor_order vs vs' : (forall x y, same x y -> x = y) -> (forall x, In x vs <-> In x vs') ->
  exists s s' l, to_list s = Ok (s, l) /\ to_list s' = Ok (s', l) /\ (forall x, In x l <-> In x vs) /\
  (exists d, ctor_init lt vs 0 (repeat false d) = Ok (Some s, 0, [])) /\ (exists d, ctor_range lt vs' 0 (repeat false d) = Ok (Some s', 0, [])).
Proof.
  intros Tot H. destruct (vset_ctor_ok vs) as (s & l & Hs & E & _ & (d & D) & _). destruct (vset_ctor_ok vs') as (s' & l' & Hs' & E' & _ & _ & (d' & D') & _).
  pose proof (set_of_ext lt SW vs vs' l l' Tot H Hs Hs') as <-. exists s, s', l. split; auto. split; auto. split.
  - intros x. rewrite (proj2 Hs). split; [apply leader_in|]. intros Hx. destruct (leader_exists lt SW vs x Hx) as (y & Ly & Sy). now rewrite (Tot _ _ Sy).
  - split; [exists d|exists d']; [rewrite <- (app_nil_r (repeat false d)); apply D|rewrite <- (app_nil_r (repeat false d')); apply D'].
Qed.
(** C115: whatever throws, the range constructor makes that set and loses nothing, or throws and loses at most one block. *)
Theorem vset_range_throws vs : exists s l, set_of vs l /\ to_list s = Ok (s, l) /\
  forall L ans, exists a, ctor_range lt vs L ans = Ok (Some s, L, a) \/ exists k, k <= 1 /\ ctor_range lt vs L ans = Ok (None, L + k, a).
Proof.
  destruct (each_out true vs [] empty_st 0 [] (empty_rel lt) set_of_nil) as (s & n & l & R & Hs & _ & _ & O & _). exists s, (elems l).
  split; [exact Hs|]. split; [exact (proj1 (to_list_rel lt s _ R))|]. intros L ans. unfold ctor_range. destruct (O L ans) as (a & [H|(p & q & s1 & L1 & n1 & l1 & Ep & H & R1 & Hp & HL & _)]); exists a; rewrite H; [now left|right].
  destruct (clear_rel lt _ _ R1) as (s2 & E2 & R2 & _). cbn [wset leaks answers]. rewrite E2. cbn [rbind]. cbn [fst] in R2. rewrite (live_elems _ _ _ R2). exists (L1 - L).
  split; [lia|]. do 3 f_equal. cbn. lia.
Qed.
(** C115: the initializer_list constructor makes that set, or throws and loses all the nodes that it has made and at most one more. *)
Theorem vset_init_throws vs : exists s l, set_of vs l /\ to_list s = Ok (s, l) /\
  forall L ans, exists a, ctor_init lt vs L ans = Ok (Some s, L, a) \/
    exists p q m k, vs = p ++ q /\ q <> [] /\ set_of p m /\ length m <= k <= S (length m) /\ ctor_init lt vs L ans = Ok (None, L + k, a).
Proof.
  destruct (each_out false vs [] empty_st 0 [] (empty_rel lt) set_of_nil) as (s & n & l & R & Hs & _ & _ & O & _). exists s, (elems l).
  split; [exact Hs|]. split; [exact (proj1 (to_list_rel lt s _ R))|]. intros L ans. unfold ctor_init. destruct (O L ans) as (a & [H|(p & q & s1 & L1 & n1 & l1 & Ep & H & R1 & Hp & HL & Hq)]); exists a; rewrite H; [now left|right].
  exists p, q, (elems l1), (L1 - L + length (elems l1)). cbn [wset leaks answers]. rewrite (live_elems _ _ _ R1). split; auto. split; [destruct Hq; [discriminate|auto]|]. split; [exact Hp|].
  split; [lia|]. do 3 f_equal. lia.
Qed.
(** C115: so it does when the constructor of any element throws that is not equivalent to one before it; the range constructor loses one block. *)
Theorem vset_ctor_leak_refuted vs p v q l : vs = p ++ v :: q -> (forall y, In y p -> ~ same v y) -> set_of p l ->
  (exists ans, ctor_init lt vs 0 ans = Ok (None, S (length l), [])) /\ (exists ans, ctor_range lt vs 0 ans = Ok (None, 1, [])).
Proof.
  intros E Hv Hl. split.
  - destruct (each_out false vs [] empty_st 0 [] (empty_rel lt) set_of_nil) as (_ & _ & _ & _ & _ & _ & _ & _ & X).
    destruct (X p v q E Hv) as (d & s1 & n1 & l1 & R1 & Hp & H). exists (repeat false d ++ [true]). unfold ctor_init. rewrite H. cbn [wset leaks answers].
    rewrite (live_elems _ _ _ R1). do 3 f_equal. cbn. f_equal. apply Permutation_length, NoDup_Permutation.
    + apply (sorted_nodup_ctor _ (proj1 Hp)).
    + apply (sorted_nodup_ctor _ (proj1 Hl)).
    + intros x. rewrite (proj2 Hp), (proj2 Hl). reflexivity.
  - destruct (each_out true vs [] empty_st 0 [] (empty_rel lt) set_of_nil) as (_ & _ & _ & _ & _ & _ & _ & _ & X).
    destruct (X p v q E Hv) as (d & s1 & n1 & l1 & R1 & Hp & H). exists (repeat false d ++ [true]). unfold ctor_range. rewrite H. cbn [wset leaks answers].
    destruct (clear_rel lt _ _ R1) as (s2 & E2 & R2 & _). rewrite E2. cbn [rbind fst] in *. rewrite (live_elems _ _ _ R2). reflexivity.
Qed.
End Ctor.

(** ** Concrete cases *)
Definition ctor_obs (x : res (@made nat)) := match x with
  | Ok (Some s, n, a) => match to_list s with Ok (_, l) => Some (Some l, n, a) | _ => None end
  | Ok (None, n, a) => Some (None, n, a)
  | _ => None end.
Example ex_ctor :
  ctor_obs (ctor_init Nat.ltb [5; 2; 5; 9; 2] 0 []) = Some (Some [2; 5; 9], 0, []) /\
  ctor_obs (ctor_range Nat.ltb [9; 9; 5; 2] 0 []) = Some (Some [2; 5; 9], 0, []) /\
  (* the constructor of the third element throws *)
  ctor_obs (ctor_init Nat.ltb [5; 2; 5; 9; 2] 0 (repeat false 11 ++ [true])) = Some (None, 3, []) /\
  (* an iterator throws at the end *)
  ctor_obs (ctor_range Nat.ltb [5; 2] 0 (repeat false 8 ++ [true])) = Some (None, 0, []) /\
  (* the constructor of the second element throws *)
  ctor_obs (ctor_range Nat.ltb [5; 2] 0 (repeat false 6 ++ [true])) = Some (None, 1, []).
Proof. vm_compute. auto 10. Qed.
