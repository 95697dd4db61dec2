(** The memory streams are tapes. *)
From Verif Require Import Common MemStreamModel MemStreamSpec.
From Coq Require Import ZifyBool ZifyNat.

Lemma set_nth_app {A} (l : list A) off x : off < length l -> set_nth l off x = firstn off l ++ x :: skipn (S off) l.
Proof. revert off. induction l as [|y l IH]; intros [|off] H; cbn in *; try lia; auto. rewrite IH by lia. reflexivity. Qed.
Lemma skipn_add' {A} (l : list A) : forall m n, skipn n (skipn m l) = skipn (m + n) l.
Proof. induction l as [|x l IH]; intros [|m] n; cbn [skipn plus]; auto; now rewrite skipn_nil. Qed.
Lemma std_copy_ok bs : forall off l, off + length bs <= length l -> std_copy bs off l = firstn off l ++ bs ++ skipn (off + length bs) l.
Proof.
  induction bs as [|x bs IH]; intros off l H; cbn [std_copy length app] in *.
  - now rewrite Nat.add_0_r, firstn_skipn.
  - rewrite IH by (rewrite set_nth_length; lia). rewrite set_nth_app by lia.
    assert (L : length (firstn off l) = off) by (apply firstn_length_le; lia).
    rewrite firstn_app, L. replace (S off - off) with 1 by lia. rewrite firstn_all2 by lia. cbn [firstn]. rewrite <- app_assoc. cbn [app]. f_equal. f_equal. f_equal.
    rewrite skipn_app, L, skipn_all2 by lia. replace (S off + length bs - off) with (S (length bs)) by lia. cbn [app skipn].
    change (skipn (length bs) (skipn (S off) l) = skipn (off + S (length bs)) l). rewrite skipn_add'. f_equal. lia.
Qed.

Definition obj_rel (s : sheap) (o : sobj) (t : tape) : Prop :=
  exists b, sbuf o = Some b /\ sptr o = Some (b, tpos t) /\ blocks s b = Some (tdata t) /\ ssize o = length (tdata t) /\ skd o = tkd t /\ tpos t <= length (tdata t).
Record rel (s : sheap) (e : tapes) : Prop := {
  r_objs : forall i, match objs s i, e i with Some o, Some t => obj_rel s o t | None, None => True | _, _ => False end;
  r_inj : forall i j o o' b, objs s i = Some o -> objs s j = Some o' -> sbuf o = Some b -> sbuf o' = Some b -> i = j;
  r_fresh : forall b, bnext s <= b -> blocks s b = None;
  r_owned : forall b, blocks s b <> None -> exists i o, objs s i = Some o /\ sbuf o = Some b
}.

Lemma put_length bs t : tpos t + length bs <= length (tdata t) -> length (tdata (put bs t)) = length (tdata t).
Proof. intros H. cbn. rewrite !app_length, skipn_length, firstn_length_le by lia. lia. Qed.

(** An object that keeps its block *)
Lemma rel_update s e i o b t' : rel s e -> objs s i = Some o -> sbuf o = Some b -> length (tdata t') = ssize o -> tkd t' = skd o -> tpos t' <= length (tdata t') ->
  rel (SHeap (upd (blocks s) b (Some (tdata t'))) (bnext s) (upd (objs s) i (Some (SObj (skd o) (ssize o) (sbuf o) (Some (b, tpos t')))))) (upd e i (Some t')).
Proof.
  intros [RO RI RF RW] O B L K P. constructor; cbn [objs blocks bnext].
  - intros j. destruct (Nat.eq_dec j i) as [->|NE]; [rewrite !upd_eq; exists b; cbn; rewrite upd_eq; auto 10|]. rewrite !upd_neq by auto. specialize (RO j). destruct (objs s j) as [o'|] eqn:OJ, (e j); auto.
    destruct RO as (b' & H1 & H2 & H3 & H4). exists b'. cbn. rewrite upd_neq; auto. intros ->. apply NE. eapply RI; eauto.
  - intros j1 j2 o1 o2 c H1 H2 H3 H4. unfold upd in H1, H2. destruct (Nat.eqb_spec j1 i) as [->|], (Nat.eqb_spec j2 i) as [->|]; auto.
    + injection H1 as <-. cbn in H3. exact (RI _ _ _ _ _ O H2 H3 H4).
    + injection H2 as <-. cbn in H4. exact (RI _ _ _ _ _ H1 O H3 H4).
    + exact (RI _ _ _ _ _ H1 H2 H3 H4).
  - intros c C. assert (c <> b). { intros ->. specialize (RO i). rewrite O in RO. destruct (e i); [|contradiction]. destruct RO as (b' & H1 & H2 & H3 & _). assert (b' = b) by congruence. subst. rewrite RF in H3 by auto. discriminate. }
    rewrite upd_neq by auto. auto.
  - intros c C. destruct (Nat.eq_dec c b) as [->|NE].
    + exists i. eexists. rewrite upd_eq. split; [reflexivity|]. auto.
    + rewrite upd_neq in C by auto. apply RW in C as (j & o' & H1 & H2). exists j, o'. rewrite upd_neq; auto. intros ->. congruence.
Qed.
Lemma rel_same_blocks s e s' : rel s e -> (forall b, blocks s' b = blocks s b) -> bnext s' = bnext s -> (forall i, objs s' i = objs s i) -> rel s' e.
Proof.
  intros [RO RI RF RW] B N O. constructor.
  - intros i. rewrite O. specialize (RO i). destruct (objs s i), (e i); auto. destruct RO as (b & H). exists b. rewrite B. auto.
  - intros i j o o' b. rewrite !O. eauto.
  - intros b. rewrite N, B. auto.
  - intros b. rewrite B. intros H. apply RW in H as (i & o & H). exists i, o. rewrite O. auto.
Qed.
Lemma upd_id {B} (f : nat -> B) k j : upd f k (f k) j = f j.
Proof. unfold upd. destruct (Nat.eqb_spec j k); subst; auto. Qed.
(** ... and only its pointer moves *)
Lemma rel_seek s e i o b t p : rel s e -> objs s i = Some o -> sbuf o = Some b -> e i = Some t -> p <= length (tdata t) ->
  rel (set_obj s i (Some (SObj (skd o) (ssize o) (sbuf o) (Some (b, p))))) (upd e i (Some (Tape (tkd t) (tdata t) p))).
Proof.
  intros R O B T P. pose proof (r_objs _ _ R i) as RO. rewrite O, T in RO. destruct RO as (b' & H1 & H2 & H3 & H4 & H5 & H6). assert (b' = b) as -> by congruence.
  pose proof (rel_update s e i o b (Tape (tkd t) (tdata t) p) R O B) as U. cbn [tdata tpos tkd] in U. specialize (U (eq_sym H4) (eq_sym H5) P).
  eapply rel_same_blocks; [exact U| | |]; cbn; auto. intros c. rewrite <- H3. symmetry. apply upd_id.
Qed.

Section Eqs.
  Context (s : sheap) (i : nat) (o : sobj) (t : tape) (b : nat).
  Hypothesis H1 : sbuf o = Some b.
  Hypothesis H2 : sptr o = Some (b, tpos t).
  Hypothesis H3 : blocks s b = Some (tdata t).
  Hypothesis H4 : ssize o = length (tdata t).
  Lemma length_eq : get_length o = Ok (tpos t).
  Proof using H1 H2. unfold get_length. rewrite H1, H2, Nat.eqb_refl. reflexivity. Qed.
  Lemma assert_eq n : assert_fits o n = if fits n t then Ok tt else UB.
  Proof using H1 H2 H4. unfold assert_fits. rewrite length_eq. cbn [rbind]. rewrite H4. unfold fits. destruct (_ <=? _); reflexivity. Qed.
  Lemma store_eq bs ok : store s i o bs ok = if fits (length bs) t && ok (tpos t)
    then Ok (SHeap (upd (blocks s) b (Some (tdata (put bs t)))) (bnext s) (upd (objs s) i (Some (SObj (skd o) (ssize o) (sbuf o) (Some (b, tpos (put bs t)))))), SNone) else UB.
  Proof using H2 H3.
    unfold store, at_ptr. rewrite H2, H3. cbn [rbind]. unfold fits. destruct (Nat.leb_spec (tpos t + length bs) (length (tdata t))); cbn [guard andb]; auto.
    destruct (ok (tpos t)); cbn [guard]; auto. rewrite std_copy_ok by auto. reflexivity.
  Qed.
  Lemma load_eq n ok : load s i o n ok = if fits n t && ok (tpos t)
    then Ok (set_obj s i (Some (SObj (skd o) (ssize o) (sbuf o) (Some (b, tpos t + n)))), SBytes (next n t)) else UB.
  Proof using H2 H3.
    unfold load, at_ptr. rewrite H2, H3. cbn [rbind]. unfold fits. destruct (Nat.leb_spec (tpos t + n) (length (tdata t))); cbn [guard andb]; auto.
  Qed.
  Lemma rel_put e bs : rel s e -> objs s i = Some o -> tkd t = skd o -> fits (length bs) t = true ->
    rel (SHeap (upd (blocks s) b (Some (tdata (put bs t)))) (bnext s) (upd (objs s) i (Some (SObj (skd o) (ssize o) (sbuf o) (Some (b, tpos (put bs t))))))) (upd e i (Some (put bs t))).
  Proof using H1 H4. unfold fits. intros R O K F. apply rel_update; auto; rewrite put_length by lia; auto. cbn [tpos put]. lia. Qed.
End Eqs.

Lemma step_rel s e op : rel s e -> no_copy op = true ->
  match tape_step e op with
  | Some (e', v) => exists s', sstep s op = Ok (s', v) /\ rel s' e'
  | None => sstep s op = UB
  end.
Proof.
  intros R NC. destruct op as [i k n|i j|i j|i|i al bs|i bs|i n|i w|i|i|i]; cbn [no_copy] in NC; try discriminate; cbn [tape_step sstep]; pose proof (r_objs _ _ R i) as RO;
    destruct (objs s i) as [o|] eqn:O, (e i) as [t|] eqn:T; try contradiction; try reflexivity; try (destruct RO as (b & H1 & H2 & H3 & H4 & H5 & H6)).
  - eexists. split; [reflexivity|]. destruct R as [RO' RI RF RW]. assert (FB : blocks s (bnext s) = None) by (apply RF; lia).
    assert (OLD : forall j oj c, objs s j = Some oj -> sbuf oj = Some c -> c <> bnext s).
    { intros j oj c Oj Bj ->. specialize (RO' j). rewrite Oj in RO'. destruct (e j); [|contradiction]. destruct RO' as (b' & Q1 & _ & Q3 & _). congruence. }
    constructor; cbn [objs blocks bnext].
    + intros j. destruct (Nat.eq_dec j i) as [->|NE].
      * rewrite !upd_eq. exists (bnext s). cbn. rewrite upd_eq, repeat_length. repeat split; auto; lia.
      * rewrite !upd_neq by auto. specialize (RO' j). destruct (objs s j) as [oj|] eqn:Oj, (e j); auto. destruct RO' as (b' & Q1 & Q2 & Q3 & Q4). exists b'. cbn. rewrite upd_neq; auto. eapply OLD; eauto.
    + intros j1 j2 o1 o2 c Q1 Q2 Q3 Q4. unfold upd in Q1, Q2. destruct (Nat.eqb_spec j1 i) as [->|], (Nat.eqb_spec j2 i) as [->|]; auto.
      * injection Q1 as <-. cbn in Q3. injection Q3 as <-. exfalso. eapply OLD; eauto.
      * injection Q2 as <-. cbn in Q4. injection Q4 as <-. exfalso. eapply OLD; eauto.
      * eapply RI; eauto.
    + intros c C. rewrite upd_neq by lia. apply RF. lia.
    + intros c C. destruct (Nat.eq_dec c (bnext s)) as [->|NE]; [exists i; eexists; rewrite upd_eq; eauto|]. rewrite upd_neq in C by auto. apply RW in C as (j & oj & Q1 & Q2). exists j, oj. rewrite upd_neq; auto. congruence.
  - cbv beta iota. rewrite H1, H3. eexists. split; [reflexivity|]. destruct R as [RO' RI RF RW]. constructor; cbn [objs blocks bnext].
    + intros j. destruct (Nat.eq_dec j i) as [->|NE]; [now rewrite !upd_eq|]. rewrite !upd_neq by auto. specialize (RO' j). destruct (objs s j) as [oj|] eqn:Oj, (e j); auto. destruct RO' as (b' & Q1 & Q2 & Q3 & Q4).
      exists b'. cbn. rewrite upd_neq; auto. intros ->. apply NE. eapply RI; eauto.
    + intros j1 j2 o1 o2 c Q1 Q2 Q3 Q4. unfold upd in Q1, Q2. destruct (Nat.eqb_spec j1 i), (Nat.eqb_spec j2 i); try discriminate. eapply RI; eauto.
    + intros c C. unfold upd. destruct (c =? b); auto.
    + intros c C. destruct (Nat.eq_dec c b) as [->|NE]; [rewrite upd_eq in C; congruence|]. rewrite upd_neq in C by auto. apply RW in C as (j & oj & Q1 & Q2). exists j, oj. rewrite upd_neq; auto. congruence.
  - unfold write_ok. rewrite <- H5. destruct (skd o) eqn:SK.
    + rewrite (store_eq s i o t b) by auto. assert (PO : plain_ok al (tpos t) (length bs) = negb (int_copy (length bs)) || divides (length bs) (tpos t) && divides (length bs) al).
      { unfold plain_ok, int_copy, aligned, divides. destruct (length bs) as [|[|[|[|[|[|[|[|[|]]]]]]]]]; reflexivity. }
      rewrite PO. destruct (fits (length bs) t) eqn:F; cbn [andb]; auto. destruct (_ || _); [|reflexivity]. eexists. split; [reflexivity|]. apply rel_put; auto; congruence.
    + rewrite (assert_eq o t b), (store_eq s i o t b) by auto. destruct (fits (length bs) t) eqn:F; cbn [andb rbind]; [|reflexivity]. eexists. split; [reflexivity|]. apply rel_put; auto; congruence.
    + rewrite (assert_eq o t b), (store_eq s i o t b) by auto. destruct (fits (length bs) t) eqn:F; cbn [andb rbind]; [|reflexivity]. eexists. split; [reflexivity|]. apply rel_put; auto; congruence.
  - unfold readable. rewrite <- H5. destruct (skd o) eqn:SK; cbn [andb]; try reflexivity. cbn [andb]. rewrite (assert_eq o t b), (store_eq s i o t b) by auto. destruct (fits (length bs) t) eqn:F; cbn [andb rbind]; auto.
    change (aligned (tpos t) (length bs)) with (divides (length bs) (tpos t)). destruct (divides (length bs) (tpos t)); [|reflexivity]. eexists. split; [reflexivity|]. apply rel_put; auto; congruence.
  - unfold readable. rewrite <- H5. destruct (skd o) eqn:SK; cbn [andb]; try reflexivity. rewrite (length_eq o t b) by auto. cbn [rbind]. rewrite (load_eq s i o t b) by auto. rewrite H4.
    assert (NL : length (next n t) = Nat.min n (length (tdata t) - tpos t)) by (unfold next; rewrite firstn_length, skipn_length; auto).
    assert (EQ : next (Nat.min n (length (tdata t) - tpos t)) t = next n t).
    { unfold next. destruct (Nat.le_ge_cases n (length (tdata t) - tpos t)); [now rewrite Nat.min_l by auto|]. rewrite Nat.min_r by auto. rewrite !firstn_all2; auto; rewrite skipn_length; lia. }
    rewrite EQ, NL. unfold fits. destruct (Nat.leb_spec (tpos t + Nat.min n (length (tdata t) - tpos t)) (length (tdata t))); [|lia]. cbn [andb].
    eexists. split; [reflexivity|]. rewrite <- H4 at 1. apply rel_seek; auto.
  - unfold readable. rewrite <- H5. destruct (skd o) eqn:SK; cbn [andb]; try reflexivity. cbn [andb]. rewrite (assert_eq o t b), (load_eq s i o t b) by auto. destruct (fits w t) eqn:F; cbn [andb rbind]; auto.
    change (aligned (tpos t) w) with (divides w (tpos t)). destruct (divides w (tpos t)); auto. eexists. split; [reflexivity|]. apply rel_seek; auto. unfold fits in F. lia.
  - rewrite H1. eexists. split; [reflexivity|]. rewrite <- H1. apply rel_seek; auto. lia.
  - rewrite (length_eq o t b) by auto. cbn [rbind]. eauto.
  - unfold readable. rewrite <- H5. destruct (skd o); cbn [andb]; try reflexivity. rewrite (length_eq o t b) by auto. cbn [rbind]. rewrite H4. eauto.
Qed.

Lemma runs_rel ops : forall s e, rel s e -> forallb no_copy ops = true ->
  match tape_run e ops with
  | Some (e', vs) => exists s', sruns s ops = Ok (s', vs) /\ rel s' e'
  | None => sruns s ops = UB
  end.
Proof.
  induction ops as [|op ops IH]; intros s e R NC; cbn [tape_run sruns].
  - eauto.
  - cbn [forallb] in NC. apply andb_prop in NC as [NC1 NC2]. pose proof (step_rel s e op R NC1) as ST. destruct (tape_step e op) as [[e1 v]|].
    + destruct ST as (s1 & -> & R1). cbn [rbind]. specialize (IH s1 e1 R1 NC2). destruct (tape_run e1 ops) as [[e2 vs]|].
      * destruct IH as (s2 & -> & R2). cbn [rbind]. eauto.
      * now rewrite IH.
    + now rewrite ST.
Qed.
Lemma rel_init : rel sinit (fun _ => None).
Proof. constructor; cbn; auto; try discriminate; congruence. Qed.

(** A program that does not copy or move streams returns what the tapes return, and it is undefined exactly if the tapes do not allow
    it.  What remains on the heap are the buffers of the streams that exist. *)
Theorem mem_streams_are_tapes ops : forallb no_copy ops = true ->
  match tape_run (fun _ => None) ops with
  | Some (e, vs) => exists s, sruns sinit ops = Ok (s, vs) /\ ((forall i, e i = None) -> forall b, blocks s b = None)
  | None => sruns sinit ops = UB
  end.
Proof.
  intros NC. pose proof (runs_rel ops _ _ rel_init NC) as H. destruct (tape_run _ ops) as [[e vs]|]; auto. destruct H as (s & E & R). exists s. split; auto. intros N b.
  destruct (blocks s b) eqn:B; auto. destruct (r_owned _ _ R b) as (i & o & O & _); [congruence|]. pose proof (r_objs _ _ R i) as Q. rewrite O, N in Q. contradiction.
Qed.

Lemma tape_run_app l1 : forall l2 e, tape_run e (l1 ++ l2) = match tape_run e l1 with Some (e1, v1) => match tape_run e1 l2 with Some (e2, v2) => Some (e2, v1 ++ v2) | None => None end | None => None end.
Proof.
  induction l1 as [|o l1 IH]; intros l2 e; cbn [app tape_run]; [now destruct (tape_run e l2) as [[]|]|]. destruct (tape_step e o) as [[e1 v]|]; auto. rewrite IH.
  destruct (tape_run e1 l1) as [[e2 v2]|]; auto. destruct (tape_run e2 l2) as [[e3 v3]|]; auto.
Qed.
Lemma writes_run al ws : forall e t d z, e 0 = Some t -> tkd t = TrivialIo -> tdata t = d ++ z -> tpos t = length d -> length (concat ws) <= length z ->
  exists e' t', tape_run e (map (SWrite 0 al) ws) = Some (e', repeat SNone (length ws)) /\ e' 0 = Some t' /\ tkd t' = TrivialIo /\ tdata t' = d ++ concat ws ++ skipn (length (concat ws)) z.
Proof.
  induction ws as [|w ws IH]; intros e t d z T K D P L; cbn [map tape_run concat length repeat app] in *.
  - exists e, t. cbn. auto.
  - rewrite app_length in L. cbn [tape_step]. rewrite T. unfold write_ok, fits. rewrite K, D, P, app_length. destruct (Nat.leb_spec (length d + length w) (length d + length z)); [|lia]. cbn [andb].
    destruct (IH (upd e 0 (Some (put w t))) (put w t) (d ++ w) (skipn (length w) z)) as (e' & t' & R & T' & K' & D').
    + apply upd_eq. + exact K.
    + cbn [tdata put]. rewrite D, P. rewrite firstn_app, firstn_all, Nat.sub_diag. cbn [firstn]. rewrite app_nil_r. rewrite skipn_app, skipn_all2 by lia. cbn [app]. rewrite <- app_assoc. do 3 f_equal. lia.
    + cbn [tpos put]. rewrite app_length. lia.
    + rewrite skipn_length. lia.
    + rewrite R. exists e', t'. split; auto. split; auto. split; auto. rewrite D', skipn_add', app_length, <- !app_assoc. reflexivity.
Qed.
Lemma reads_run ns : forall e t, e 0 = Some t -> tkd t = TrivialIo -> exists e', tape_run e (map (SRead 0) ns) = Some (e', map SBytes (pieces ns (skipn (tpos t) (tdata t)))).
Proof.
  induction ns as [|n ns IH]; intros e t T K; cbn [map tape_run pieces]; [eauto|]. cbn [tape_step]. rewrite T. unfold readable. rewrite K.
  destruct (IH (upd e 0 (Some (move (length (next n t)) t))) (move (length (next n t)) t)) as (e' & R); [apply upd_eq|exact K|]. rewrite R. exists e'.
  assert (Q : skipn (tpos (move (length (next n t)) t)) (tdata (move (length (next n t)) t)) = skipn n (skipn (tpos t) (tdata t))); [|rewrite Q; reflexivity]. cbn [tpos tdata move].
  unfold next. rewrite firstn_length, skipn_length, skipn_add'. destruct (Nat.le_ge_cases n (length (tdata t) - tpos t)); [now rewrite Nat.min_l by auto|]. rewrite Nat.min_r by auto. rewrite !skipn_all2; auto; lia.
Qed.
(** What was written is read, in pieces of any lengths; the rest of the capacity is zero. *)
Theorem mem_round_trip n al ws ns : length (concat ws) <= n ->
  exists s, sruns sinit (SNew 0 TrivialIo n :: map (SWrite 0 al) ws ++ SReset 0 :: map (SRead 0) ns)
    = Ok (s, SNone :: repeat SNone (length ws) ++ SNone :: map SBytes (pieces ns (concat ws ++ repeat 0%Z (n - length (concat ws))))).
Proof.
  intros L. set (ops := _ :: _). assert (NC : forallb no_copy ops = true).
  { unfold ops. cbn. rewrite forallb_app. cbn. apply andb_true_intro. split; apply forallb_forall; intros o I; apply in_map_iff in I as (x & <- & _); reflexivity. }
  pose proof (mem_streams_are_tapes ops NC) as M. unfold ops in M. cbn [tape_run tape_step] in M. rewrite tape_run_app in M.
  destruct (writes_run al ws (upd (fun _ => None) 0 (Some (Tape TrivialIo (repeat 0%Z n) 0))) (Tape TrivialIo (repeat 0%Z n) 0) [] (repeat 0%Z n)) as (e1 & t1 & R1 & T1 & K1 & D1); auto.
  { now rewrite repeat_length. }
  rewrite R1 in M. cbn [tape_run tape_step] in M. rewrite T1 in M.
  destruct (reads_run ns (upd e1 0 (Some (Tape (tkd t1) (tdata t1) 0))) (Tape (tkd t1) (tdata t1) 0)) as (e2 & R2); [apply upd_eq|exact K1|]. rewrite R2 in M.
  destruct M as (s & E & _). exists s. unfold ops. rewrite E. cbn [skipn tpos tdata]. rewrite D1. cbn [app].
  assert (Q : skipn (length (concat ws)) (repeat 0%Z n) = repeat 0%Z (n - length (concat ws))); [|rewrite Q; reflexivity].
  generalize (length (concat ws)). clear. intros k. revert k. induction n as [|n IH]; intros [|k]; cbn; auto.
Qed.

(** The length is what was written since the stream was made. *)
Theorem mem_length n k al ws : length (concat ws) <= n -> k <> SwitchOut ->
  exists s, sruns sinit (SNew 0 k n :: map (SWrite 0 al) ws ++ [SLength 0]) = Ok (s, SNone :: repeat SNone (length ws) ++ [SNum (length (concat ws))]).
Proof.
  intros L K. set (ops := _ :: _). assert (NC : forallb no_copy ops = true).
  { unfold ops. cbn. rewrite forallb_app. cbn. rewrite andb_true_r. apply forallb_forall; intros o I; apply in_map_iff in I as (x & <- & _); reflexivity. }
  pose proof (mem_streams_are_tapes ops NC) as M. unfold ops in M. cbn [tape_run tape_step] in M. rewrite tape_run_app in M.
  assert (W : forall ws e t, e 0 = Some t -> tkd t = k -> tpos t + length (concat ws) <= length (tdata t) ->
    exists e' t', tape_run e (map (SWrite 0 al) ws) = Some (e', repeat SNone (length ws)) /\ e' 0 = Some t' /\ tpos t' = tpos t + length (concat ws)).
  { clear - K. induction ws as [|w ws IH]; intros e t T KK LL; cbn [map tape_run concat length repeat] in *; [exists e, t; split; auto; split; auto; lia|].
    rewrite app_length in *. cbn [tape_step]. rewrite T. unfold write_ok, fits. destruct (Nat.leb_spec (tpos t + length w) (length (tdata t))); [|lia]. cbn [andb].
    assert (X : match tkd t with SwitchOut => negb (int_copy (length w)) || divides (length w) (tpos t) && divides (length w) al | _ => true end = true) by (rewrite KK; destruct k; congruence). rewrite X.
    destruct (IH (upd e 0 (Some (put w t))) (put w t)) as (e' & t' & R & T' & P'); [apply upd_eq|auto|rewrite put_length by auto; cbn [tpos put]; lia|]. rewrite R. exists e', t'. split; auto. split; auto. rewrite P'. cbn [tpos put]. lia. }
  destruct (W ws (upd (fun _ => None) 0 (Some (Tape k (repeat 0%Z n) 0))) (Tape k (repeat 0%Z n) 0)) as (e1 & t1 & R1 & T1 & P1); auto.
  { cbn [tpos tdata]. rewrite repeat_length. auto. }
  rewrite R1 in M. cbn [tape_run tape_step] in M. rewrite T1 in M. destruct M as (s & E & _). exists s. unfold ops. rewrite E, P1. reflexivity.
Qed.

(** ** What is not so *)
(** The classes with a raw pointer are copied with it, and moved the same way: the buffer is deleted twice. *)
Theorem mem_copy_refuted k n : k <> VirtualOut -> sruns sinit [SNew 0 k n; SCopy 1 0; SDestroy 0; SDestroy 1] = UB /\ sruns sinit [SNew 0 k n; SMove 1 0; SDestroy 0; SDestroy 1] = UB.
Proof. destruct k; try congruence; intros _; split; reflexivity. Qed.
(** A moved VirtualMemoryOutputStream has a pointer to the buffer of the other one: its GetLength is undefined, also after it was reset. *)
Theorem mem_moved_from_refuted n m : 0 < m ->
  (exists s, sruns sinit [SNew 0 VirtualOut n; SMove 1 0; SDestroy 0; SDestroy 1] = Ok (s, [SNone; SNone; SNone; SNone])) /\
  sruns sinit [SNew 0 VirtualOut n; SMove 1 0; SLength 0] = UB /\
  sruns sinit [SNew 0 VirtualOut n; SMove 1 0; SWrite 0 0 (repeat 7%Z m)] = UB /\
  sruns sinit [SNew 0 VirtualOut n; SMove 1 0; SReset 0; SLength 0] = UB.
Proof. intros H. split; [eexists; reflexivity|]. repeat split; reflexivity. Qed.
(** The write of an integer after a byte is misaligned: Switch copies by integers. *)
Theorem mem_switch_misaligned_refuted n x w bs : 9 <= n -> int_copy w = true -> length bs = w -> sruns sinit [SNew 0 SwitchOut n; SWrite 0 0 [x]; SWrite 0 0 bs] = UB.
Proof.
  intros N I L. pose proof (mem_streams_are_tapes [SNew 0 SwitchOut n; SWrite 0 0 [x]; SWrite 0 0 bs] eq_refl) as M.
  set (t1 := Tape SwitchOut (repeat 0%Z n) 0) in *. set (e1 := upd (fun _ : nat => None) 0 (Some t1)).
  assert (S1 : tape_step (fun _ => None) (SNew 0 SwitchOut n) = Some (e1, SNone)) by reflexivity.
  assert (S2 : tape_step e1 (SWrite 0 0 [x]) = Some (upd e1 0 (Some (put [x] t1)), SNone)).
  { cbn [tape_step]. unfold e1 at 1. rewrite upd_eq. unfold write_ok, fits. cbn [tpos tdata length t1]. rewrite repeat_length. destruct (Nat.leb_spec (0 + 1) n); [reflexivity|lia]. }
  assert (S3 : tape_step (upd e1 0 (Some (put [x] t1))) (SWrite 0 0 bs) = None).
  { cbn [tape_step]. rewrite upd_eq. unfold write_ok. cbn [tkd put tpos t1 length plus]. rewrite L, I. assert (D : divides w 1 = false) by (destruct w as [|[|[|[|[|[|[|[|[|]]]]]]]]]; try discriminate; reflexivity).
    rewrite D. cbn [negb orb andb]. now rewrite andb_false_r. }
  cbn [tape_run] in M. rewrite S1, S2, S3 in M. exact M.
Qed.
(** ... and the same with the typed functions of TrivialMemoryStream. *)
Theorem mem_put_misaligned_refuted n x bs : 1 < length bs -> sruns sinit [SNew 0 TrivialIo n; SPut 0 [x]; SPut 0 bs] = UB.
Proof.
  intros L. pose proof (mem_streams_are_tapes [SNew 0 TrivialIo n; SPut 0 [x]; SPut 0 bs] eq_refl) as M.
  set (t1 := Tape TrivialIo (repeat 0%Z n) 0) in *. set (e1 := upd (fun _ : nat => None) 0 (Some t1)).
  assert (S1 : tape_step (fun _ => None) (SNew 0 TrivialIo n) = Some (e1, SNone)) by reflexivity.
  cbn [tape_run] in M. rewrite S1 in M. destruct (tape_step e1 (SPut 0 [x])) as [[e2 v]|] eqn:S2; [|exact M].
  assert (E2 : e2 = upd e1 0 (Some (put [x] t1))). { cbn [tape_step] in S2. unfold e1 at 1 in S2. rewrite upd_eq in S2. destruct (_ && _); [|discriminate]. now injection S2. }
  assert (S3 : tape_step e2 (SPut 0 bs) = None).
  { subst e2. cbn [tape_step]. rewrite upd_eq. cbn [tkd put tpos t1 length plus]. assert (D : divides (length bs) 1 = false) by (unfold divides; rewrite Nat.mod_small by auto; reflexivity).
    rewrite D. now rewrite andb_false_r. }
  rewrite S3 in M. exact M.
Qed.
(** The capacity is not checked in a release build. *)
Theorem mem_overflow_refuted k n bs : n < length bs -> sruns sinit [SNew 0 k n; SWrite 0 0 bs] = UB.
Proof.
  intros L. pose proof (mem_streams_are_tapes [SNew 0 k n; SWrite 0 0 bs] eq_refl) as M. cbn [tape_run tape_step] in M. rewrite upd_eq in M. unfold write_ok, fits in M. cbn [tpos tdata] in M. rewrite repeat_length in M.
  destruct (Nat.leb_spec (0 + length bs) n); [lia|]. exact M.
Qed.

(** ** TrivialSpace *)
(** No TrivialSpace may be destroyed: the array is deleted as one object. *)
Theorem space_destroy_refuted n : (let* t := t_construct n in t_destroy t) = UB.
Proof. reflexivity. Qed.
(** What is allocated is disjoint, within the reserved space, and the requests follow each other without gaps. *)
Theorem space_allocations rs : forall t t' l, tused t <= tsize t -> a_allocates rs t = Ok (t', l) ->
  tused t' = tused t + list_sum (map (fun r => snd r * fst r) rs) /\ tused t' <= tsize t /\ tsize t' = tsize t /\
  map snd l = map (fun r => snd r * fst r) rs /\
  (forall k off len, nth_error l k = Some (off, len) -> off = tused t + list_sum (firstn k (map snd l)) /\ off + len <= tsize t) /\
  (forall k w n off len, nth_error rs k = Some (w, n) -> nth_error l k = Some (off, len) -> w <> 0 -> exists q, off = q * w).
Proof.
  induction rs as [|[w n] rs IH]; intros t t' l U E; cbn [a_allocates] in E.
  - injection E as <- <-. cbn. split; [lia|]. split; auto. split; auto. split; auto. split; intros [|]; discriminate.
  - unfold a_allocate, t_allocate in E. destruct (Nat.leb_spec (n * w) (tsize t - tused t)); cbn [guard rbind] in E; [|discriminate]. destruct (aligned (tused t) w) eqn:A; cbn [guard rbind] in E; [|discriminate].
    destruct (a_allocates rs _) as [[t2 l2]| |] eqn:E2; try discriminate. cbn [rbind] in E. injection E as <- <-. apply IH in E2 as (H1 & H2 & H3 & H4 & H5 & H6); [|cbn; lia]. cbn [tused tsize] in *.
    cbn [map list_sum fold_right fst snd]. cbn [list_sum fold_right] in *. fold (list_sum (map (fun r : nat * nat => snd r * fst r) rs)) in *.
    split; [lia|]. split; auto. split; auto. split; [now f_equal|]. split.
    + intros [|k] off len K; cbn [nth_error firstn map snd] in *; [injection K as <- <-; cbn; lia|]. apply H5 in K as [K1 K2]. split; auto. rewrite K1. cbn [list_sum fold_right]. unfold list_sum. lia.
    + intros [|k] w' n' off len K1 K2 W; cbn [nth_error] in *; [|eapply H6; eauto]. injection K1 as <- <-. injection K2 as <- <-. unfold aligned in A. apply Nat.eqb_eq in A. exists (tused t / w). rewrite Nat.mul_comm. apply Nat.div_exact; auto.
Qed.
(** They succeed if they fit and all have elements of one size. *)
Theorem space_progress w ns : forall n, list_sum (map (fun k => k * w) ns) <= n -> w <> 0 -> exists t0 t l, t_construct n = Ok t0 /\ a_allocates (map (fun k => (w, k)) ns) t0 = Ok (t, l).
Proof.
  intros n L W. eexists. assert (G : forall ns t, list_sum (map (fun k => k * w) ns) <= tsize t - tused t -> (exists q, tused t = q * w) -> exists t' l, a_allocates (map (fun k => (w, k)) ns) t = Ok (t', l)).
  { clear - W. induction ns as [|k ns IH]; intros t L [q Q]; cbn [map a_allocates]; [eauto|]. cbn [map list_sum fold_right] in L. fold (list_sum (map (fun k => k * w) ns)) in L. unfold a_allocate, t_allocate. destruct (Nat.leb_spec (k * w) (tsize t - tused t)); [|lia]. cbn [guard rbind].
    assert (A : aligned (tused t) w = true) by (unfold aligned; rewrite Q, Nat.mod_mul by auto; reflexivity). rewrite A. cbn [guard rbind].
    destruct (IH (TSpace (tsize t) (tbuf t) (tused t + k * w))) as (t' & l & ->); [cbn; lia|exists (q + k); cbn; nia|]. cbn [rbind]. eauto. }
  destruct (G ns (TSpace n true 0)) as (t & l & E); [cbn; lia|exists 0; reflexivity|]. exists t, l. split; [reflexivity|exact E].
Qed.
(** Allocators of elements of different sizes share the space without regard to alignment. *)
Theorem space_misaligned_refuted n w : 1 < w -> 1 + w <= n -> exists t0, t_construct n = Ok t0 /\ a_allocates [(1, 1); (w, 1)] t0 = UB.
Proof.
  intros W N. eexists. split; [reflexivity|]. cbn [a_allocates]. unfold a_allocate, t_allocate. cbn [tsize tused tbuf]. destruct (Nat.leb_spec (1 * 1) (n - 0)); [|lia]. cbn [guard rbind]. change (aligned 0 1) with true. cbn [guard rbind tsize tused].
  destruct (Nat.leb_spec (1 * w) (n - (0 + 1 * 1))); [|lia]. cbn [guard rbind]. unfold aligned. rewrite Nat.mod_small by lia. reflexivity.
Qed.

Example ex_mem_streams :
  match sruns sinit [SNew 0 TrivialIo 8; SNew 1 SwitchOut 16; SWrite 0 1 [1;2;3]%Z; SWrite 1 0 [1;2;3;4]%Z; SPut 0 [9]%Z; SPut 0 [5;6;7;8]%Z; SEnd 0; SReset 0; SRead 0 3; SLength 0; SGet 0 1; SRead 0 100; SLength 1; SDestroy 0; SDestroy 1] with
  | Ok (s, vs) => vs = [SNone; SNone; SNone; SNone; SNone; SNone; SBool true; SNone; SBytes [1;2;3]%Z; SNum 3; SBytes [9]%Z; SBytes [5;6;7;8]%Z; SNum 4; SNone; SNone] /\ blocks s 0 = None /\ blocks s 1 = None
  | _ => False
  end.
Proof. vm_compute. auto. Qed.
Example ex_space : a_allocates [(4, 2); (4, 1); (2, 3)] (TSpace 20 true 0) = Ok (TSpace 20 true 18, [(0, 8); (8, 4); (12, 6)]).
Proof. reflexivity. Qed.
