(** awl::ring, properties C08-C11.  Every statement is about programs that use
    any number of ring variables: [rrun] runs the model of Ring.h, [srun] is the
    bounded-deque specification of RingSpec.v. *)
From Verif Require Import Common RingModel RingSpec RingProofs.
From Coq Require Import ZifyBool ZifyNat.
Local Arguments Nat.eqb : simpl nomatch.
Local Arguments Nat.leb : simpl nomatch.
Local Arguments Nat.sub : simpl nomatch.

(** C08.  Any history of operations meeting the documented preconditions has
    defined behaviour and every observation in it (size, capacity, front, back,
    operator[], at, forward and reverse iteration, ==) is that of a bounded
    double-ended queue.  [true] restricts the history to supported steps, see
    [ring_at_size_refuted], [ring_push_own_front_refuted] and
    [ring_push_own_back_refuted] for the three kinds of steps left out. *)
Theorem ring_refines_bounded_deque_partial :
  forall (T : Type) (eqb : T -> T -> bool) (os : list (rop T)) e' vs,
    srun eqb sinit os = Some (e', vs, true) ->
    exists st', rrun eqb rinit os = Ok (st', vs).
Proof.
  intros T eqb os e' vs H. destruct (run_ok eqb os rinit sinit e' vs Rel_init H) as (st' & E & _). eauto.
Qed.
Print Assumptions ring_refines_bounded_deque_partial.

Example ring_refines_bounded_deque_case :
  srun Nat.eqb sinit
    [ONew 0 3; OPushBack 0 1; OPushBack 0 2; OPushFront 0 9; OPushBack 0 4; OIter 0;
     OPushFront 0 5; ORIter 0; OPushBackOwn 0 1; OCopy 1 0; OPopFront 0; OReserve 0 5; OPushBack 0 7;
     OEq 0 1; OFront 0; OBack 0; OAt 0 9; OAssign 1 0; OEq 0 1; OMove 2 0; OIter 2;
     ODestroy 0; ODestroy 1; ODestroy 2]
  = Some (fun i => upd (fun j => upd (upd (upd (upd (upd (upd (upd (upd (upd (upd (upd (upd (upd (upd
      (upd (upd sinit 0 (SLive 3 [])) 0 (SLive 3 [1])) 0 (SLive 3 [1;2])) 0 (SLive 3 [9;1;2])) 0 (SLive 3 [1;2;4]))
       0 (SLive 3 [5;1;2])) 0 (SLive 3 [1;2;1])) 1 (SLive 3 [1;2;1])) 0 (SLive 3 [2;1])) 0 (SLive 5 [2;1]))
       0 (SLive 5 [2;1;7])) 1 (SLive 5 [2;1;7])) 0 SNull) 2 (SLive 5 [2;1;7])) 0 SNone) 1 SNone j) 2 SNone i,
    [VUnit; VUnit; VUnit; VUnit; VUnit; VList [1;2;4]; VUnit; VList [2;1;5]; VUnit; VUnit; VUnit; VUnit; VUnit;
     VBool false; VElt 2; VElt 7; VExn OutOfRange; VUnit; VBool true; VUnit; VList [2;1;7]; VUnit; VUnit; VUnit], true).
Proof. reflexivity. Qed.

(** C08, memory: when every ring of the program has been destroyed no buffer is
    left allocated (and, as the run is [Ok], each element was destroyed exactly
    once and no buffer was freed twice or with the wrong capacity). *)
Theorem ring_no_leak :
  forall (T : Type) (eqb : T -> T -> bool) (os : list (rop T)) e' vs,
    srun eqb sinit os = Some (e', vs, true) ->
    (forall i, e' i = SNone) ->
    exists st', rrun eqb rinit os = Ok (st', vs) /\ forall k, blocks (fst st') k = None.
Proof.
  intros T eqb os e' vs H Hdead. destruct (run_ok eqb os rinit sinit e' vs Rel_init H) as (st' & E & R).
  exists st'. split; auto. intros k. destruct (blocks (fst st') k) as [s|] eqn:B; auto.
  destruct (rel_leak _ _ R _ _ B) as (i & r & Hi & _). pose proof (rel_var _ _ R i) as Hv.
  rewrite Hdead, Hi in Hv. discriminate.
Qed.
Print Assumptions ring_no_leak.

Example ring_no_leak_case :
  exists e' vs, srun Nat.eqb sinit
    [ONew 0 2; OPushBack 0 1; OCopy 1 0; OPushBack 1 2; OPushBack 1 3; OReserve 1 4; OMoveAssign 0 1; ODestroy 0; ODestroy 1]
    = Some (e', vs, true) /\ forall i, e' i = SNone.
Proof. do 2 eexists. split; [reflexivity|]. intros [|[|i]]; reflexivity. Qed.

(** C08, in closed form: what is left after appending any sequence to a ring of
    capacity c is its last c elements; prepending leaves the last c in reverse. *)
Lemma srun_app {T} (eqb : T -> T -> bool) a b : forall e e1 v1 e2 v2,
  srun eqb e a = Some (e1, v1, true) -> srun eqb e1 b = Some (e2, v2, true) ->
  srun eqb e (a ++ b) = Some (e2, v1 ++ v2, true).
Proof.
  induction a as [|o a IH]; intros e e1 v1 e2 v2 H1 H2; cbn [srun app] in *.
  - injection H1 as <- <-. exact H2.
  - destruct (sstep eqb e o) as [[e0 v]|]; [|discriminate].
    destruct (srun eqb e0 a) as [[[e' vs] bb]|] eqn:E; [|discriminate].
    injection H1 as <- <- Hb. apply andb_prop in Hb as [-> ->].
    rewrite (IH _ _ _ _ _ E H2). reflexivity.
Qed.

Lemma skipn_app_le {T} n (l r : list T) : n <= length l -> skipn n (l ++ r) = skipn n l ++ r.
Proof.
  intros H. rewrite skipn_app. replace (n - length l) with 0 by lia. reflexivity.
Qed.

Lemma bd_push_back_lastn {T} c (l : list T) x : c <> 0 -> bd_push_back c (lastn c l) x = lastn c (l ++ [x]).
Proof.
  intros Hc. unfold bd_push_back, lastn. rewrite skipn_length, app_length; simpl.
  destruct (length l - (length l - c) <? c) eqn:Q.
  - replace (length l - c) with 0 by lia. replace (length l + 1 - c) with 0 by lia. reflexivity.
  - replace (length l + 1 - c) with (S (length l - c)) by lia.
    rewrite skipn_app_le by lia. f_equal.
    assert (forall n (y : list T), tl (skipn n y) = skipn (S n) y) as Hk.
    { intros n; induction n as [|n IH]; intros [|z y]; auto. simpl skipn at 1. rewrite IH. reflexivity. }
    apply Hk.
Qed.

Theorem ring_keeps_last_pushed :
  forall (T : Type) (eqb : T -> T -> bool) (c : nat) (xs : list T), c <> 0 ->
    exists st' vs, rrun eqb rinit (ONew 0 c :: map (OPushBack 0) xs ++ [OIter 0]) = Ok (st', vs) /\
      last vs VUnit = VList (lastn c xs).
Proof.
  intros T eqb c xs Hc.
  assert (H : forall ys done e, e 0 = SLive c (lastn c done) ->
            exists e' vs, srun eqb e (map (OPushBack 0) ys) = Some (e', vs, true) /\ e' 0 = SLive c (lastn c (done ++ ys))).
  { intros ys; induction ys as [|y ys IH]; intros dn e He.
    - exists e, []. rewrite app_nil_r. auto.
    - cbn [map srun sstep supported]. rewrite He.
      destruct (IH (dn ++ [y]) (upd e 0 (SLive c (bd_push_back c (lastn c dn) y)))) as (e' & vs & E & He').
      { rewrite upd_eq. f_equal. now apply bd_push_back_lastn. }
      rewrite E. do 2 eexists. split; [reflexivity|]. rewrite <- app_assoc in He'. exact He'. }
  destruct (H xs [] (upd sinit 0 (SLive c []))) as (e' & vs & E & He').
  { rewrite upd_eq. f_equal. }
  pose proof (srun_app eqb _ [OIter 0] _ _ _ e' [VList (lastn c xs)] E) as Happ.
  assert (Hfull : srun eqb sinit (ONew 0 c :: map (OPushBack 0) xs ++ [OIter 0]) =
          Some (e', VUnit :: vs ++ [VList (lastn c xs)], true)).
  { cbn [srun sstep supported]. unfold sinit at 1. destruct (c =? 0) eqn:Q; [lia|].
    rewrite Happ; [reflexivity|]. cbn [srun sstep supported]. rewrite He'. reflexivity. }
  destruct (run_ok eqb _ rinit sinit _ _ Rel_init Hfull) as (st' & Er & _).
  exists st', (VUnit :: vs ++ [VList (lastn c xs)]). split; auto.
  change (last ((VUnit :: vs) ++ [VList (lastn c xs)]) VUnit = VList (lastn c xs)). apply last_last.
Qed.
Print Assumptions ring_keeps_last_pushed.

Example ring_keeps_last_pushed_case : lastn 3 [1;2;3;4;5] = [3;4;5] /\ lastn 3 [1;2] = [1;2].
Proof. split; reflexivity. Qed.

(** C09.  reserve keeps the most recent elements that fit, in order, and changes
    the capacity; it works for growing, shrinking and wrapped-around contents. *)
Theorem ring_reserve_keeps_tail :
  forall (T : Type) (eqb : T -> T -> bool) (os : list (rop T)) e vs i c l n,
    srun eqb sinit os = Some (e, vs, true) -> e i = SLive c l -> n <> 0 ->
    exists st', rrun eqb rinit (os ++ [OReserve i n; OIter i; OCapacity i; OSize i]) =
      Ok (st', vs ++ [VUnit; VList (lastn n l); VNat n; VNat (Nat.min n (length l))]).
Proof.
  intros T eqb os e vs i c l n H Hi Hn.
  destruct (run_ok eqb (os ++ [OReserve i n; OIter i; OCapacity i; OSize i]) rinit sinit
     (upd e i (SLive n (lastn n l)))
     (vs ++ [VUnit; VList (lastn n l); VNat n; VNat (length (lastn n l))]) Rel_init) as (st' & E & _).
  - eapply srun_app; [exact H|]. cbn [srun sstep supported]. destruct (n =? 0) eqn:Q; [lia|].
    rewrite Hi. rewrite !upd_eq. reflexivity.
  - exists st'. rewrite E. do 6 f_equal. unfold lastn. rewrite skipn_length. do 2 f_equal. lia.
Qed.
Print Assumptions ring_reserve_keeps_tail.

Example ring_reserve_case :
  exists e vs, srun Nat.eqb sinit [ONew 0 3; OPushBack 0 1; OPushBack 0 2; OPushBack 0 3; OPushBack 0 4]
    = Some (e, vs, true) /\ e 0 = SLive 3 [2;3;4] /\ lastn 2 [2;3;4] = [3;4].
Proof. do 2 eexists. repeat split; reflexivity. Qed.

(** C10.  at(k) returns element k, or throws std::out_of_range, for every k other
    than size(). *)
Theorem ring_at_checked_partial :
  forall (T : Type) (eqb : T -> T -> bool) (os : list (rop T)) e vs i c l k,
    srun eqb sinit os = Some (e, vs, true) -> e i = SLive c l -> k <> length l ->
    exists st', rrun eqb rinit (os ++ [OAt i k]) =
      Ok (st', vs ++ [match nth_error l k with Some v => VElt v | None => VExn OutOfRange end]).
Proof.
  intros T eqb os e vs i c l k H Hi Hk.
  destruct (run_ok eqb (os ++ [OAt i k]) rinit sinit e
     (vs ++ [match nth_error l k with Some v => VElt v | None => VExn OutOfRange end]) Rel_init) as (st' & E & _); eauto.
  eapply srun_app; [exact H|]. cbn [srun sstep supported]. rewrite Hi.
  destruct (k =? length l) eqn:Q; [lia|]. destruct (nth_error l k); reflexivity.
Qed.
Print Assumptions ring_at_checked_partial.

Example ring_at_checked_case :
  exists e vs, srun Nat.eqb sinit [ONew 0 2; OPushBack 0 1; OPushBack 0 2; OPushBack 0 3]
    = Some (e, vs, true) /\ e 0 = SLive 2 [2;3] /\ nth_error [2;3] 1 = Some 3 /\ nth_error [2;3] 5 = None.
Proof. do 2 eexists. repeat split; reflexivity. Qed.

(** C10 fails at k = size(): for every ring that is not full the access reads raw
    memory, for every full ring it returns the first element instead of throwing. *)
Theorem ring_at_size_refuted :
  forall (T : Type) (eqb : T -> T -> bool) (os : list (rop T)) e vs i c l,
    srun eqb sinit os = Some (e, vs, true) -> e i = SLive c l ->
    (length l < c -> rrun eqb rinit (os ++ [OAt i (length l)]) = UB) /\
    (length l = c -> exists st' x, hd_error l = Some x /\
       rrun eqb rinit (os ++ [OAt i (length l)]) = Ok (st', vs ++ [VElt x])).
Proof.
  intros T eqb os e vs i c l H Hi.
  destruct (run_ok eqb os rinit sinit e vs Rel_init H) as (st & E & R).
  assert (Happ : forall a b s w, rrun eqb s a = Ok w ->
            rrun eqb s (a ++ b) = let* (s2, vs2) := rrun eqb (fst w) b in Ok (s2, snd w ++ vs2)).
  { clear. intros a; induction a as [|o a IH]; intros b s w Hw; cbn [rrun app] in *.
    - injection Hw as <-. simpl. now destruct (rrun eqb s b) as [[? ?]| |].
    - destruct (rstep eqb s o) as [[s1 v]| |]; try discriminate. cbn [rbind] in *.
      destruct (rrun eqb s1 a) as [[s2 vs2]| |] eqn:Ea; try discriminate. cbn [rbind] in *. injection Hw as <-.
      rewrite (IH b _ _ Ea). simpl. now destruct (rrun eqb s2 b) as [[? ?]| |]. }
  rewrite (Happ os _ _ _ E). clear Happ. simpl fst. simpl snd.
  destruct (Rel_live _ _ _ _ _ R Hi) as (r & Hr & Hc & Ho).
  pose proof (owns_facts _ _ _ Ho) as (Hz & Hd & Hle).
  cbn [rrun rstep]. unfold query, with_var. rewrite Hr. unfold at_, index.
  destruct (size r <? length l) eqn:Q; [lia|].
  destruct Ho as (k & s & Hb & Hs & Hk & Hl & _ & _ & _ & Hn).
  unfold load. rewrite Hb, Hs. split; intros Hlt.
  - rewrite Hn by lia. assert (nth_error l (length l) = None) as -> by (apply nth_error_None; lia). reflexivity.
  - destruct l as [|x l]; [simpl in *; lia|]. exists st, x. split; [reflexivity|].
    assert (address r (length (x :: l)) = address r 0) as ->.
    { unfold address. destruct (cap r <=? data r + length (x :: l)) eqn:Q1; destruct (cap r <=? data r + 0) eqn:Q2; lia. }
    rewrite Hn by lia. reflexivity.
Qed.
Print Assumptions ring_at_size_refuted.

Example ring_at_size_refuted_case :
  rrun Nat.eqb rinit [ONew 0 3; OPushBack 0 1; OAt 0 1] = UB.
Proof. reflexivity. Qed.

(** C08 fails when a full ring is given a reference to its own element that has
    to make room: the element is destroyed before it is copied. *)
Theorem ring_push_own_front_refuted :
  exists os : list (rop nat),
    (exists e vs, srun Nat.eqb sinit os = Some (e, vs, false)) /\ rrun Nat.eqb rinit os = UB.
Proof.
  exists [ONew 0 2; OPushBack 0 1; OPushBack 0 2; OPushBackOwn 0 0]. split; [|reflexivity].
  do 2 eexists. reflexivity.
Qed.
Print Assumptions ring_push_own_front_refuted.

Theorem ring_push_own_back_refuted :
  exists os : list (rop nat),
    (exists e vs, srun Nat.eqb sinit os = Some (e, vs, false)) /\ rrun Nat.eqb rinit os = UB.
Proof.
  exists [ONew 0 2; OPushBack 0 1; OPushBack 0 2; OPushFrontOwn 0 1]. split; [|reflexivity].
  do 2 eexists. reflexivity.
Qed.
Print Assumptions ring_push_own_back_refuted.

(** C11.  A copy (by construction or assignment, from or to itself too) has the
    elements and capacity of its source, leaves the source unchanged, and later
    changes to one are not seen through the other: copying variable j to i and
    then running any program that does not touch i leaves i's contents alone. *)
Definition touches {T} (i : nat) (o : rop T) : bool :=
  match o with
  | ODefault a | ONew a _ | ODestroy a | OPushBack a _ | OPushFront a _ | OPushBackOwn a _ | OPushFrontOwn a _
  | OPopFront a | OPopBack a | OClear a | OReserve a _ => a =? i
  | OCopy a _ | OAssign a _ => a =? i
  | OMove a b | OMoveAssign a b => (a =? i) || (b =? i)
  | _ => false
  end.

Lemma sstep_untouched {T} (eqb : T -> T -> bool) e o e' v i :
  touches i o = false -> sstep eqb e o = Some (e', v) -> e' i = e i.
Proof.
  intros Ht Hs. destruct o; cbn [touches sstep] in *;
  repeat match goal with
  | H : (match ?x with _ => _ end) = Some _ |- _ => destruct x eqn:?; try discriminate
  end; try (injection Hs as <- <-); try reflexivity; unfold upd;
  repeat match goal with |- context [?a =? ?b] => destruct (Nat.eqb_spec a b); subst end; try lia; auto.
Qed.

Lemma srun_untouched {T} (eqb : T -> T -> bool) os i : forall e e' vs,
  forallb (fun o => negb (touches i o)) os = true -> srun eqb e os = Some (e', vs, true) -> e' i = e i.
Proof.
  induction os as [|o os IH]; intros e e' vs Ht Hs; cbn [srun forallb] in *.
  - injection Hs as <- <-. reflexivity.
  - apply andb_prop in Ht as [Ho Ht]. apply negb_true_iff in Ho.
    destruct (sstep eqb e o) as [[e1 v]|] eqn:E; [|discriminate].
    destruct (srun eqb e1 os) as [[[e2 vs2] b]|] eqn:E2; [|discriminate].
    injection Hs as <- <- Hb. apply andb_prop in Hb as [_ ->].
    rewrite (IH _ _ _ Ht E2). eapply sstep_untouched; eauto.
Qed.

Theorem ring_copy_independent :
  forall (T : Type) (eqb : T -> T -> bool) (os os2 : list (rop T)) (o : rop T) e vs e2 vs2 i j c l,
    (o = OCopy i j \/ o = OAssign i j) ->
    srun eqb sinit os = Some (e, vs, true) -> e j = SLive c l ->
    forallb (fun o => negb (touches i o)) os2 = true ->
    srun eqb sinit (os ++ o :: os2) = Some (e2, vs2, true) ->
    exists st', rrun eqb rinit ((os ++ o :: os2) ++ [OIter i; OCapacity i]) =
      Ok (st', vs2 ++ [VList l; VNat c]).
Proof.
  intros T eqb os os2 o e vs e2 vs2 i j c l Ho H Hj Ht H2.
  assert (He : e2 i = SLive c l).
  { clear - Ho H Hj Ht H2. revert e vs vs2 H Hj H2. generalize (@sinit T).
    induction os as [|o' os IH]; intros s e vs vs2 H Hj H2; cbn [srun app] in *.
    - injection H as -> <-. destruct (sstep eqb e o) as [[e1 v]|] eqn:Eo; [|discriminate].
      destruct (srun eqb e1 os2) as [[[e3 vs3] b]|] eqn:E3; [|discriminate].
      injection H2 as <- <- Hb. apply andb_prop in Hb as [_ ->].
      rewrite (srun_untouched _ _ _ _ _ _ Ht E3).
      destruct Ho as [-> | ->]; cbn [sstep] in Eo; rewrite Hj in Eo; destruct (e i); try discriminate;
        injection Eo as <- <-; apply upd_eq.
    - destruct (sstep eqb s o') as [[s1 v]|]; [|discriminate].
      destruct (srun eqb s1 os) as [[[e3 vs3] b3]|] eqn:E3; [|discriminate].
      injection H as <- <- Hb. apply andb_prop in Hb as [_ ->].
      destruct (srun eqb s1 (os ++ o :: os2)) as [[[e4 vs4] b4]|] eqn:E4; [|discriminate].
      injection H2 as <- <- Hb. apply andb_prop in Hb as [_ ->].
      eapply IH; eauto. }
  destruct (run_ok eqb ((os ++ o :: os2) ++ [OIter i; OCapacity i]) rinit sinit e2 (vs2 ++ [VList l; VNat c]) Rel_init)
    as (st' & E & _); eauto.
  eapply srun_app; [exact H2|]. cbn [srun sstep supported]. rewrite He. cbn [srun sstep supported]. rewrite He. reflexivity.
Qed.
Print Assumptions ring_copy_independent.

Example ring_copy_independent_case :
  exists e vs e2 vs2,
    srun Nat.eqb sinit [ONew 0 2; OPushBack 0 1; OPushBack 0 2; ONew 1 1] = Some (e, vs, true) /\ e 0 = SLive 2 [1;2] /\
    forallb (fun o => negb (touches 1 o)) [OPushBack 0 3; OClear 0; ODestroy 0] = true /\
    srun Nat.eqb sinit ([ONew 0 2; OPushBack 0 1; OPushBack 0 2; ONew 1 1] ++ OAssign 1 0 :: [OPushBack 0 3; OClear 0; ODestroy 0])
      = Some (e2, vs2, true).
Proof. do 4 eexists. repeat split; reflexivity. Qed.

(** C11.  == compares contents, independently of capacity and of where the
    elements lie in the buffers. *)
Theorem ring_equality_is_content_equality :
  forall (T : Type) (eqb : T -> T -> bool) (os : list (rop T)) e vs i j c l c2 l2,
    (forall x y, eqb x y = true <-> x = y) ->
    srun eqb sinit os = Some (e, vs, true) -> e i = SLive c l -> e j = SLive c2 l2 ->
    exists st' b, rrun eqb rinit (os ++ [OEq i j]) = Ok (st', vs ++ [VBool b]) /\ (b = true <-> l = l2).
Proof.
  intros T eqb os e vs i j c l c2 l2 Heq H Hi Hj.
  destruct (run_ok eqb (os ++ [OEq i j]) rinit sinit e (vs ++ [VBool (list_eqb eqb l l2)]) Rel_init) as (st' & E & _).
  - eapply srun_app; [exact H|]. cbn [srun sstep supported]. rewrite Hi, Hj. reflexivity.
  - exists st', (list_eqb eqb l l2). split; auto. clear - Heq. revert l2.
    induction l as [|x l IH]; intros [|y l2]; simpl; try (split; congruence).
    rewrite andb_true_iff, Heq, IH. split; [intros [-> ->]; auto|intros HH; injection HH; auto].
Qed.
Print Assumptions ring_equality_is_content_equality.

Example ring_equality_case :
  exists e vs, srun Nat.eqb sinit
     [ONew 0 2; OPushBack 0 9; OPushBack 0 1; OPushBack 0 2; ONew 1 5; OPushBack 1 1; OPushBack 1 2] = Some (e, vs, true)
   /\ e 0 = SLive 2 [1;2] /\ e 1 = SLive 5 [1;2].
Proof. do 2 eexists. repeat split; reflexivity. Qed.

(** C11 fails for rings without a buffer: copying a default-constructed ring, or
    a ring that has been moved from while it held elements, is undefined. *)
Theorem ring_copy_of_null_refuted :
  rrun Nat.eqb rinit [ODefault 0; OCopy 1 0] = UB /\
  rrun Nat.eqb rinit [ODefault 0; ONew 1 2; OAssign 1 0] = UB /\
  rrun Nat.eqb rinit [ODefault 0; OSize 0] = UB /\
  forall c x, c <> 0 -> rrun Nat.eqb rinit [ONew 0 c; OPushBack 0 x; OMove 1 0; OCopy 2 0] = UB.
Proof.
  repeat split. intros c x Hc. destruct c as [|c]; [lia|]. cbn. destruct c; cbn; reflexivity.
Qed.
Print Assumptions ring_copy_of_null_refuted.
