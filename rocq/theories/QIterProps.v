(** Iterators of a quick_list are places. *)
From Verif Require Import Common QListModel QListSpec QListProofs QListRel QListSim QIterModel QIterSpec.
From Coq Require Import ZifyBool ZifyNat.

Definition addr_of (p : place) : addr := match p with AtElem n => El n | AtEnd l => Nl l end.

Lemma after_in_eq s1 : forall n s2 l, ~ In n s1 -> after_in (s1 ++ n :: s2) n l = Some (first_of s2 l).
Proof. induction s1 as [|x s1 IH]; intros n s2 l H; cbn [app after_in]; [now rewrite Nat.eqb_refl|]. destruct (Nat.eqb_spec x n) as [->|]; [exfalso; apply H; cbn; auto|]. apply IH. intros X. apply H. cbn. auto. Qed.
Lemma after_in_none s n l : ~ In n s -> after_in s n l = None.
Proof. induction s as [|x s IH]; intros H; cbn; auto. destruct (Nat.eqb_spec x n) as [->|]; [exfalso; apply H; cbn; auto|]. apply IH. intros X. apply H. cbn. auto. Qed.
Lemma after_elem_eq ls n l s1 s2 : In (l, s1 ++ n :: s2) ls -> ~ In n s1 -> (forall l' s', In (l', s') ls -> In n s' -> l' = l /\ s' = s1 ++ n :: s2) -> after_elem ls n = Some (first_of s2 l).
Proof.
  induction ls as [|[k t] ls IH]; cbn [after_elem]; intros I N U; [contradiction|]. destruct (in_dec Nat.eq_dec n t) as [H|H].
  - destruct (U k t) as [-> ->]; cbn; auto. now rewrite after_in_eq.
  - rewrite after_in_none by auto. apply IH; auto.
    + destruct I as [[= -> ->]|I]; auto. exfalso. apply H. rewrite in_app_iff. cbn. auto.
    + intros l' s' J. apply U. cbn. auto.
Qed.
Lemma after_elem_some ls n p : after_elem ls n = Some p -> exists l s, In (l, s) ls /\ In n s.
Proof.
  induction ls as [|[k t] ls IH]; cbn [after_elem]; [discriminate|]. intros H. destruct (in_dec Nat.eq_dec n t) as [I|I]; [exists k, t; cbn; auto|]. rewrite after_in_none in H by auto. apply IH in H as (l & s & H1 & H2). exists l, s. cbn. auto.
Qed.
Lemma first_addr s l l2 q : map El s ++ [Nl l] = q :: l2 -> addr_of (first_of s l) = q.
Proof. destruct s; cbn; intros E; injection E as E _; auto. Qed.

(** In both directions the links are the places. *)
Lemma next_link m e p q : Rel m (vw (lists e)) (elems e) -> NoDup (map fst (lists e)) -> next_place (lists e) p = Some q -> alive m (addr_of p) /\ fwd m (addr_of p) = Some (addr_of q).
Proof.
  intros R ND H. destruct p as [n|l]; cbn [next_place addr_of] in *.
  - pose proof (after_elem_some _ _ _ H) as (l & s & I1 & I2). apply in_split in I2 as (s1 & s2 & ->). assert (F := in_find _ _ _ ND I1).
    pose proof (r_nd _ _ _ R _ _ F) as NS. apply NoDup_remove_2 in NS. rewrite in_app_iff in NS.
    rewrite (after_elem_eq _ n l s1 s2) in H; auto.
    2:{ intros l' s' J K. assert (F' := in_find _ _ _ ND J). assert (l' = l) as -> by exact (r_dj _ _ _ R _ _ _ _ n F' F K ltac:(rewrite in_app_iff; cbn; auto)). split; auto. congruence. }
    injection H as <-. pose proof (r_circ _ _ _ R _ _ F) as C. rewrite map_app in C. cbn [map] in C. destruct (circ_elem _ _ _ _ _ C) as (l1 & p' & q' & l2 & E1 & E2 & _ & L1 & L2 & _).
    rewrite (first_addr _ _ _ _ E2). split; [|apply L2]. apply (circ_elem_alive _ _ _ _ C). rewrite in_app_iff. cbn. auto.
  - destruct (find_list (lists e) l) as [s|] eqn:F; [|discriminate]. injection H as <-. pose proof (r_circ _ _ _ R _ _ F) as C. split; [eapply circ_null_alive; eauto|].
    unfold circ in C. destruct s as [|x s]; cbn [map app first_of addr_of] in *; apply C.
Qed.
Lemma rev_first s l l1 p : Nl l :: map El s = l1 ++ [p] -> addr_of (first_of (rev s) l) = p.
Proof.
  destruct (rev s) as [|x r] eqn:E; cbn [first_of addr_of].
  - assert (s = []) as -> by (rewrite <- (rev_involutive s), E; reflexivity). intros H. destruct l1; [now injection H|]. destruct l1; discriminate.
  - assert (s = rev r ++ [x]) as -> by (rewrite <- (rev_involutive s), E; reflexivity). rewrite map_app. cbn [map]. intros H. change (Nl l :: map El (rev r) ++ [El x]) with ((Nl l :: map El (rev r)) ++ [El x]) in H. now apply app_inj_tail in H as [_ ->].
Qed.
Lemma prev_link m e p q : Rel m (vw (lists e)) (elems e) -> NoDup (map fst (lists e)) -> prev_place (lists e) p = Some q -> alive m (addr_of p) /\ bwd m (addr_of p) = Some (addr_of q).
Proof.
  intros R ND H. destruct p as [n|l]; cbn [prev_place next_place addr_of] in *; unfold prev_place in H; cbn [next_place] in H.
  - pose proof (after_elem_some _ _ _ H) as (l & s & I1 & I2). unfold edit in I1. apply in_map_iff in I1 as ((l0 & s0) & E0 & I1). cbn in E0. injection E0 as -> <-. rewrite <- in_rev in I2.
    apply in_split in I2 as (s1 & s2 & ->). assert (F := in_find _ _ _ ND I1).
    pose proof (r_nd _ _ _ R _ _ F) as NS. apply NoDup_remove_2 in NS. rewrite in_app_iff in NS.
    assert (RV : rev (s1 ++ n :: s2) = rev s2 ++ n :: rev s1) by (rewrite rev_app_distr; cbn; rewrite <- app_assoc; reflexivity).
    rewrite (after_elem_eq _ n l (rev s2) (rev s1)) in H.
    + injection H as <-. pose proof (r_circ _ _ _ R _ _ F) as C. rewrite map_app in C. cbn [map] in C. destruct (circ_elem _ _ _ _ _ C) as (l1 & p' & q' & l2 & E1 & E2 & _ & L1 & L2 & _).
      rewrite (rev_first _ _ _ _ E1). split; [|apply L1]. apply (circ_elem_alive _ _ _ _ C). rewrite in_app_iff. cbn. auto.
    + apply in_map_iff. exists (l, s1 ++ n :: s2). cbn. rewrite RV. auto.
    + rewrite <- in_rev. auto.
    + intros l' s' J K. apply in_map_iff in J as ((l0 & s0) & E0 & J). cbn in E0. injection E0 as -> <-. rewrite <- in_rev in K. assert (F' := in_find _ _ _ ND J).
      assert (l' = l) as -> by exact (r_dj _ _ _ R _ _ _ _ n F' F K ltac:(rewrite in_app_iff; cbn; auto)). split; auto. assert (s0 = s1 ++ n :: s2) as -> by congruence. exact RV.
  - rewrite find_edit in H. destruct (find_list (lists e) l) as [s|] eqn:F; [|discriminate]. cbn [option_map] in H. injection H as <-. pose proof (r_circ _ _ _ R _ _ F) as C. split; [eapply circ_null_alive; eauto|].
    destruct (R_gap _ _ _ l s [] R) as (l1 & p & q & l2 & E1 & E2 & _ & L & _); [now rewrite app_nil_r|]. cbn in E2. injection E2 as <- _. rewrite (rev_first _ _ _ _ E1). apply L.
Qed.

Definition iter_of (x : bool * place) : iter := Iter (fst x) (Some (addr_of (snd x))).
Definition isim (s : istate) (e : ispec) : Prop := Sim (ist s) (isp e) /\ forall i, its s i = option_map iter_of (pls e i).
Lemma isim_set s e i x : isim s e -> isim (IState (ist s) (upd (its s) i (Some (iter_of x)))) (ISpec (isp e) (upd (pls e) i (Some x))).
Proof. intros [S I]. split; auto. cbn. intros j. unfold upd. destruct (j =? i); auto. Qed.
Lemma isim_lst s e o e' v : isim s e -> sstep (isp e) o = Some (e', v) -> exists t, qstep (ist s) o = Ok (t, v) /\ isim (IState t (its s)) (ISpec e' (pls e)).
Proof. intros [S I] E. destruct (sim_step _ _ _ _ _ S E) as (t & Q & S'). exists t. split; auto. split; auto. Qed.
Lemma place_addr p q : ptr_eqb (Some (addr_of p)) (Some (addr_of q)) = place_eqb p q.
Proof. destruct p, q; reflexivity. Qed.

Lemma isim_step s e o e' v : isim s e -> ispec_step e o = Some (e', v) -> exists s', istep s o = Ok (s', v) /\ isim s' e'.
Proof.
  intros S E. pose proof S as [SS SI]. pose proof SS as (R & ND & _).
  assert (FWD : forall p q, next_place (lists (isp e)) p = Some q -> fnext (fst (ist s)) (Some (addr_of p)) = Ok (Some (addr_of q))).
  { intros p q H. apply (next_link _ _ _ _ R ND) in H as [A F]. now rewrite fnext_ok, F. }
  assert (BWD : forall p q, prev_place (lists (isp e)) p = Some q -> bnext (fst (ist s)) (Some (addr_of p)) = Ok (Some (addr_of q))).
  { intros p q H. apply (prev_link _ _ _ _ R ND) in H as [A F]. now rewrite bnext_ok, F. }
  destruct o as [o|i l r|i l r|i r|i j|i|i|i|i j|i n|i]; cbn [ispec_step istep] in *; try discriminate.
  - destruct (sstep (isp e) o) as [[t v']|] eqn:Q; [|discriminate]. injection E as <- <-. destruct (isim_lst _ _ _ _ _ S Q) as (t' & -> & S'). cbn [rbind]. eauto.
  - destruct r.
    + destruct (prev_place _ _) as [q|] eqn:Q; [|discriminate]. injection E as <- <-. pose proof (BWD (AtEnd l) q Q) as B. cbn [addr_of] in B. rewrite B. cbn [rbind]. eexists. split; [reflexivity|]. apply (isim_set s e i (true, q) S).
    + destruct (next_place _ _) as [q|] eqn:Q; [|discriminate]. injection E as <- <-. pose proof (FWD (AtEnd l) q Q) as B. cbn [addr_of] in B. rewrite B. cbn [rbind]. eexists. split; [reflexivity|]. apply (isim_set s e i (false, q) S).
  - destruct (find_list _ _); [|discriminate]. injection E as <- <-. eexists. split; [reflexivity|]. apply (isim_set s e i (r, AtEnd l) S).
  - rewrite SI. destruct (pls e j) as [x|]; [|discriminate]. injection E as <- <-. cbn [option_map]. eexists. split; [reflexivity|]. now apply isim_set.
  - rewrite SI. destruct (pls e i) as [[r p]|]; [|discriminate]. cbn [option_map]. unfold move_next. cbn [irev im_p iter_of fst snd]. destruct r.
    + destruct (prev_place _ _) as [q|] eqn:Q; [|discriminate]. injection E as <- <-. rewrite (BWD p q Q). cbn [rbind]. eexists. split; [reflexivity|]. apply (isim_set s e i (true, q) S).
    + destruct (next_place _ _) as [q|] eqn:Q; [|discriminate]. injection E as <- <-. rewrite (FWD p q Q). cbn [rbind]. eexists. split; [reflexivity|]. apply (isim_set s e i (false, q) S).
  - rewrite SI. destruct (pls e i) as [[r p]|]; [|discriminate]. cbn [option_map]. unfold move_prev. cbn [irev im_p iter_of fst snd]. destruct r.
    + destruct (next_place _ _) as [q|] eqn:Q; [|discriminate]. injection E as <- <-. rewrite (FWD p q Q). cbn [rbind]. eexists. split; [reflexivity|]. apply (isim_set s e i (true, q) S).
    + destruct (prev_place _ _) as [q|] eqn:Q; [|discriminate]. injection E as <- <-. rewrite (BWD p q Q). cbn [rbind]. eexists. split; [reflexivity|]. apply (isim_set s e i (false, q) S).
  - rewrite SI. destruct (pls e i) as [[r [n|l]]|]; try discriminate. injection E as <- <-. cbn [option_map im_p iter_of snd addr_of as_elem rbind]. eauto.
  - rewrite !SI. destruct (pls e i) as [[r p]|]; [|discriminate]. destruct (pls e j) as [[r' q]|]; [|discriminate]. cbn [option_map irev im_p iter_of fst snd]. destruct (Bool.eqb r r'); [|discriminate]. injection E as <- <-. cbn [guard]. rewrite place_addr. eauto.
  - rewrite SI. destruct (pls e i) as [[r [p|l]]|]; try discriminate. cbn [option_map im_p irev iter_of fst snd addr_of as_elem rbind].
    destruct (sstep (isp e) _) as [[t v']|] eqn:Q; [|discriminate]. injection E as <- <-. destruct (isim_lst _ _ _ _ _ S Q) as (t' & -> & S'). cbn [rbind]. eauto.
  - rewrite SI. destruct (pls e i) as [[r [p|l]]|]; try discriminate. cbn [option_map im_p irev iter_of fst snd addr_of as_elem rbind].
    destruct (sstep (isp e) _) as [[t v']|] eqn:Q; [|discriminate]. injection E as <- <-. destruct (isim_lst _ _ _ _ _ S Q) as (t' & -> & S'). cbn [rbind]. eauto.
Qed.
Lemma isim_runs os : forall s e e' vs, isim s e -> ispec_run e os = Some (e', vs) -> exists s', iruns s os = Ok (s', vs) /\ isim s' e'.
Proof.
  induction os as [|o os IH]; intros s e e' vs S E; cbn [ispec_run iruns] in *; [injection E as <- <-; eauto|].
  destruct (ispec_step e o) as [[e1 v]|] eqn:E1; [|discriminate]. destruct (ispec_run e1 os) as [[e2 vs']|] eqn:E2; [|discriminate]. injection E as <- <-.
  destruct (isim_step _ _ _ _ _ S E1) as (s1 & -> & S1). cbn [rbind]. destruct (IH _ _ _ _ S1 E2) as (s2 & -> & S2). cbn [rbind]. eauto.
Qed.
Lemma isim_init : isim iinit ispec_init.
Proof. split; [exact sim_init|reflexivity]. Qed.

(** A program may keep iterators while it changes the lists: an iterator names an element and follows it from list to list, or the end of
    its list; ++ and -- go to the places beside it in the list as it is then. *)
Theorem list_iterators_are_places os e vs : ispec_run ispec_init os = Some (e, vs) -> exists s, iruns iinit os = Ok (s, vs).
Proof. intros H. destruct (isim_runs os _ _ _ _ isim_init H) as (s & E & _). eauto. Qed.

Lemma next_at_elem ls n l s1 s2 : NoDup (map fst ls) -> find_list ls l = Some (s1 ++ n :: s2) -> ~ In n s1 ->
  (forall l' s', find_list ls l' = Some s' -> In n s' -> l' = l) -> next_place ls (AtElem n) = Some (first_of s2 l).
Proof.
  intros ND F N U. cbn [next_place]. apply after_elem_eq with s1; auto; [now apply find_in|]. intros l' s' I J. apply in_find in I; auto. assert (l' = l) as -> by eauto. split; auto. congruence.
Qed.

(** ** The loop that erases what it visits *)
Lemma in_mid {A} (n : A) s1 s2 : In n (s1 ++ n :: s2).
Proof. rewrite in_app_iff. cbn. auto. Qed.
Lemma sort_ok rest : forall fuel m g el l dst f done t p, Rel m g el -> length rest < fuel -> g l = Some (done ++ rest) -> (g dst = Some t) -> l <> dst ->
  p = Some (addr_of (first_of rest l)) ->
  exists m' g', sort_loop fuel m p l dst f = Ok (m', rest) /\ Rel m' g' el /\ (forall x, x <> l -> x <> dst -> g' x = g x) /\
    g' l = Some (done ++ filter (fun n => is_keep (f n)) rest) /\ g' dst = Some (t ++ filter (fun n => is_transfer (f n)) rest).
Proof.
  induction rest as [|n rest IH]; intros [|fuel] m g el l dst f done t p R FU G D NE P; cbn [length] in FU; try lia; cbn [sort_loop].
  - subst p. cbn [first_of addr_of]. rewrite p_is_null. exists m, g. cbn [filter]. rewrite !app_nil_r in *. auto 10.
  - subst p. cbn [first_of addr_of]. rewrite p_is_elem.
    pose proof (r_circ _ _ _ R _ _ G) as C. rewrite map_app in C. cbn [map] in C. destruct (circ_elem _ _ _ _ _ C) as (l1 & p' & q' & l2 & E1 & E2 & _ & L1 & L2 & _).
    rewrite fnext_ok by (eapply circ_elem_alive; [exact C|]; apply in_mid). destruct L2 as [L2 _]. rewrite L2. cbn [rbind as_elem]. rewrite <- (first_addr _ _ _ _ E2).
    destruct (f n) eqn:FN; cbn [filter is_keep is_transfer]; rewrite ?FN; cbn [is_keep is_transfer].
    + cbn [rbind]. destruct (IH fuel m g el l dst f (done ++ [n]) t (Some (addr_of (first_of rest l))) R) as (m' & g' & E & R' & O & GL & GD); auto; try lia; [now rewrite <- app_assoc|].
      rewrite E. cbn [rbind]. exists m', g'. split; auto. split; auto. split; auto. split; auto. rewrite GL, <- app_assoc. reflexivity.
    + destruct (R_exclude _ _ _ _ _ _ _ R G) as (m1 & l1' & p1 & _ & _ & Ex & R1 & NW & EL). rewrite Ex. cbn [rbind].
      destruct (IH fuel m1 (updv g l (done ++ rest)) el l dst f done t (Some (addr_of (first_of rest l))) R1) as (m' & g' & E & R' & O & GL & GD); auto; try lia; [apply updv_eq|rewrite updv_neq; auto|].
      rewrite E. cbn [rbind]. exists m', g'. split; auto. split; auto. split; [|auto]. intros x X1 X2. rewrite O by auto. now apply updv_neq.
    + destruct (R_exclude _ _ _ _ _ _ _ R G) as (m1 & l1' & p1 & _ & _ & Ex & R1 & NW & EL). rewrite Ex. cbn [rbind].
      destruct (R_insert m1 (updv g l (done ++ rest)) el dst t [] n R1) as (l3 & p3 & q3 & l4 & E3 & E4 & _ & (m2 & I & R2)); auto.
      { rewrite updv_neq by auto. now rewrite app_nil_r. } { rewrite EL. discriminate. }
      cbn in E4. injection E4 as <- _. change (push_back m1 dst n) with (insert_before m1 (Nl dst) (El n)). rewrite I. cbn [rbind].
      assert (R2' : Rel m2 (updv (updv g l (done ++ rest)) dst (t ++ [n])) el).
      { destruct R2 as [Q1 Q2 Q3 Q4 Q5 Q6]. assert (UU : forall k, upd el n Out k = el k) by (intros k; unfold upd; destruct (Nat.eqb_spec k n); congruence).
        constructor; auto; intros k; [specialize (Q4 k)|intros s' k'; specialize (Q5 k s' k')|specialize (Q6 k)]; rewrite UU in *; auto. }
      destruct (IH fuel m2 _ el l dst f done (t ++ [n]) (Some (addr_of (first_of rest l))) R2') as (m' & g' & E & R' & O & GL & GD); auto; try lia; [rewrite updv_neq by auto; apply updv_eq|apply updv_eq|].
      rewrite E. cbn [rbind]. exists m', g'. split; auto. split; auto. split; [|split; auto; rewrite GD, <- app_assoc; reflexivity].
      intros x X1 X2. rewrite O by auto. rewrite !updv_neq by auto. reflexivity.
Qed.

(** A loop that saves the next iterator before it erases the element, or moves it to another list, sees every element once and in order;
    what it keeps stays in order, and what it transfers is appended in order.  Iterators stay valid, and the program goes on as if the
    lists had been built this way. *)
Theorem list_sort_loop os e vs l dst s t f : ispec_run ispec_init os = Some (e, vs) ->
  find_list (lists (isp e)) l = Some s -> find_list (lists (isp e)) dst = Some t -> l <> dst ->
  exists st m', iruns iinit os = Ok (st, vs) /\ sort_list (ist st) l dst f = Ok (m', s) /\
    let ls := set_list (set_list (lists (isp e)) l (filter (fun n => is_keep (f n)) s)) dst (t ++ filter (fun n => is_transfer (f n)) s) in
    forall os2 e2 vs2, ispec_run (ISpec (with_lists (isp e) ls) (pls e)) os2 = Some (e2, vs2) -> exists s2, iruns (IState (m', snd (ist st)) (its st)) os2 = Ok (s2, vs2).
Proof.
  intros H L D NE. destruct (isim_runs os _ _ _ _ isim_init H) as (st & E & S). pose proof S as [SS SI]. pose proof SS as (R & ND & Cn & Hk).
  destruct (sort_ok s (Datatypes.S (snd (ist st))) (fst (ist st)) _ _ l dst f [] t (Some (addr_of (first_of s l))) R) as (m' & g' & Q & R' & O & GL & GD); auto.
  { rewrite Hk. eapply size_bound; eauto. }
  exists st, m'. split; auto. split.
  { unfold sort_list. assert (N : next_place (lists (isp e)) (AtEnd l) = Some (first_of s l)) by (cbn; now rewrite L). apply (next_link _ _ _ _ R ND) in N as [A F]. cbn [addr_of] in *. rewrite fnext_ok, F by auto. exact Q. }
  intros ls os2 e2 vs2 H2. assert (S2 : isim (IState (m', snd (ist st)) (its st)) (ISpec (with_lists (isp e) ls) (pls e))).
  { split; [|exact SI]. apply sim_mk; cbn [isp lists elems born with_lists fst snd]; auto.
    - eapply rel_ext; [|exact R']. intros x. unfold ls, vw. assert (D' : find_list (set_list (lists (isp e)) l (filter (fun n => is_keep (f n)) s)) dst = Some t). { erewrite find_set by eauto. rewrite updv_neq; auto. }
      erewrite find_set by eauto. destruct (Nat.eq_dec x dst) as [->|X1]; [rewrite updv_eq; auto|]. rewrite updv_neq by auto. erewrite find_set by eauto. destruct (Nat.eq_dec x l) as [->|X2]; [rewrite updv_eq; auto|]. rewrite updv_neq by auto. symmetry. apply O; auto.
    - unfold ls. now rewrite !set_names. }
  destruct (isim_runs os2 _ _ _ _ S2 H2) as (s2 & E2 & _). eauto.
Qed.

(** ++ visits what is there when it is called: an element that was inserted behind the iterator is visited, one that was erased is not. *)
Theorem list_iterator_next os e vs i n l s1 s2 : ispec_run ispec_init os = Some (e, vs) -> pls e i = Some (false, AtElem n) -> find_list (lists (isp e)) l = Some (s1 ++ n :: s2) ->
  exists st st', iruns iinit os = Ok (st, vs) /\ istep st (IInc i) = Ok (st', VUnit) /\
    match s2 with x :: _ => istep st' (IDeref i) = Ok (st', VElem x) | [] => its st' i = Some (Iter false (Some (Nl l))) end.
Proof.
  intros H P L. destruct (isim_runs os _ _ _ _ isim_init H) as (st & E & S). pose proof S as [SS SI]. pose proof SS as (R & ND & _).
  pose proof (r_nd _ _ _ R _ _ L) as NS. apply NoDup_remove_2 in NS. rewrite in_app_iff in NS.
  assert (N : next_place (lists (isp e)) (AtElem n) = Some (first_of s2 l)).
  { apply next_at_elem with s1; auto. intros l' s' F I. eapply (r_dj _ _ _ R); [exact F|exact L|exact I|apply in_mid]. }
  assert (ST : ispec_step e (IInc i) = Some (ISpec (isp e) (upd (pls e) i (Some (false, first_of s2 l))), VUnit)) by (cbn [ispec_step]; now rewrite P, N).
  destruct (isim_step _ _ _ _ _ S ST) as (st' & E' & [_ SI']). exists st, st'. split; auto. split; auto.
  specialize (SI' i). cbn [pls] in SI'. rewrite upd_eq in SI'. destruct s2 as [|x s2]; cbn [first_of] in SI'; [exact SI'|]. cbn [istep]. rewrite SI'. reflexivity.
Qed.

(** ** What is not so *)
(** An iterator to an erased element cannot be incremented and used: the links are null. *)
Theorem list_iterator_erased_refuted : exists os vs s, iruns iinit os = Ok (s, vs) /\ iruns iinit (os ++ [IErase 0; IDeref 0]) <> UB /\
  iruns iinit (os ++ [IErase 0; IInc 0; IDeref 0]) = UB /\ iruns iinit (os ++ [IErase 0; IInc 0; IInc 0]) = UB.
Proof.
  exists [ILst (QNewElem 1); ILst (QNewElem 2); ILst (QNewList 0); ILst (QPushBack 0 1); ILst (QPushBack 0 2); IBegin 0 0 false].
  eexists _, _. split; [reflexivity|]. split; [|split; reflexivity]. vm_compute. discriminate.
Qed.
(** After clear() an iterator to an element that was in the list still walks through the others. *)
Theorem list_iterator_cleared_refuted : exists os vs s, iruns iinit os = Ok (s, vs) /\
  match iruns iinit (os ++ [ILst (QClear 0); ILst (QSize 0); IInc 0; IDeref 0; IInc 0; IEnd 1 0 false; IEq 0 1]) with
  | Ok (_, vs') => vs' = vs ++ [VUnit; VNat 0; VUnit; VElem 2; VUnit; VUnit; VBool true]
  | _ => False
  end.
Proof.
  exists [ILst (QNewElem 1); ILst (QNewElem 2); ILst (QNewList 0); ILst (QPushBack 0 1); ILst (QPushBack 0 2); IBegin 0 0 false].
  eexists _, _. split; [reflexivity|]. vm_compute. reflexivity.
Qed.
(** insert() puts the element behind the iterator, not before it as in the standard library, and not at all at the end: nothing can be
    inserted into an empty list with it. *)
Theorem list_insert_end_refuted l n st : istep (IState st (upd (fun _ => None) 0 (Some (Iter false (Some (Nl l)))))) (IInsert 0 n) = UB.
Proof. reflexivity. Qed.

(** begin() and the end are kept while elements come and go; element 2 is followed to another list; a reverse iterator to it goes back. *)
Example ex_list_iterators :
  let os := map (fun n => ILst (QNewElem n)) [1;2;3;4] ++ [ILst (QNewList 0); ILst (QNewList 1); ILst (QPushBack 0 1); ILst (QPushBack 0 2); ILst (QPushBack 0 3); IBegin 0 0 false; IEnd 9 0 false;
    IInc 0; IDeref 0; IInsert 0 4; IInc 0; IDeref 0; IDec 0; IErase 0; IDeref 0; ILst (QPushBack 1 2); ILst (QSpliceBack 1 0); IInc 0; IDeref 0; IBegin 2 1 true; IDeref 2; IInc 2; IDeref 2; IEq 0 9; IBegin 3 0 false; IEq 3 9; IDec 9; IInc 9; IEq 3 9; ILst (QIter 1)] in
  match ispec_run ispec_init os, iruns iinit os with
  | Some (_, vs), Ok (_, vs') => vs = vs' /\ skipn 11 vs = [VUnit; VElem 2; VUnit; VUnit; VElem 4; VUnit; VUnit; VElem 2; VUnit; VUnit; VUnit; VElem 1; VUnit; VElem 3; VUnit; VElem 4; VBool false; VUnit; VBool true; VUnit; VUnit; VBool true; VList [2;1;4;3]]
  | _, _ => False
  end.
Proof. vm_compute. auto. Qed.
Example ex_sort_loop :
  match iruns iinit (map (fun n => ILst (QNewElem n)) [1;2;3;4;5] ++ ILst (QNewList 0) :: ILst (QNewList 1) :: map (fun n => ILst (QPushBack 0 n)) [1;2;3;4;5]) with
  | Ok (s, _) => match sort_list (ist s) 0 1 (fun n => if Nat.even n then Transfer else if Nat.eqb n 3 then Drop else Keep) with
                 | Ok (m, seen) => seen = [1;2;3;4;5] /\ iterate 9 m 0 = Ok [1;5] /\ iterate 9 m 1 = Ok [2;4]
                 | _ => False
                 end
  | _ => False
  end.
Proof. vm_compute. auto. Qed.
