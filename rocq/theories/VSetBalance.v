(** Balance of vector_set: kept by insertions, lost by erasures. *)
From Verif Require Import Common VSetModel VSetProg VSetSpec VSetTree VSetRotate VSetInsert VSetRemove VSetLookup VSetList VSetOps VSetProofs.
From Coq Require Import ZifyBool ZifyNat Sorted.

(** *** Red-black trees of black height n *)
Fixpoint okt (t : tree) (n : nat) : Prop :=
  match t with
  | E => n = 0
  | N Red l _ r => okt l n /\ okt r n /\ is_redt l = false /\ is_redt r = false
  | N Black l _ r => exists m, n = S m /\ okt l m /\ okt r m
  end.
Fixpoint okc (C : ctx) (n : nat) : Prop :=
  match C with
  | [] => True
  | Fr _ Red _ s :: C' => okt s n /\ is_redt s = false /\ okc C' n /\
                          match C' with [] => False | f :: _ => fc f = Black end
  | Fr _ Black _ s :: C' => okt s n /\ okc C' (S n)
  end.

Lemma okt_mkN_red d l a r n : okt (mkN d Red l a r) n <-> okt l n /\ okt r n /\ is_redt l = false /\ is_redt r = false.
Proof. destruct d; simpl; tauto. Qed.
Lemma okt_mkN_black d l a r n : okt l n -> okt r n -> okt (mkN d Black l a r) (S n).
Proof. destruct d; simpl; eauto 6. Qed.
Lemma is_redt_mkN d c l a r : is_redt (mkN d c l a r) = match c with Red => true | Black => false end.
Proof. destruct d, c; reflexivity. Qed.

Lemma plug_okt C : forall t n, okt t n -> okc C n -> (is_redt t = true -> match C with [] => True | f :: _ => fc f = Black end) ->
  exists m, okt (plug t C) m.
Proof.
  induction C as [|[d [] p s] C IH]; intros t n Ht Hc Hr; simpl in *; [eauto|..].
  - destruct Hc as (H1 & H2 & H3 & H4). apply (IH _ n); auto.
    + apply okt_mkN_red. repeat split; auto. destruct (is_redt t); auto. specialize (Hr eq_refl). discriminate.
    + unfold plug1. simpl. intros _. destruct C; auto.
  - destruct Hc as (H1 & H2). apply (IH _ (S n)); auto.
    + unfold plug1. simpl. now apply okt_mkN_black.
    + unfold plug1. simpl. rewrite is_redt_mkN. discriminate.
Qed.

Lemma okt_blk t n : okt t n -> exists m, okt (blk t) m.
Proof. destruct t as [|[] l a r]; simpl; intros H; eauto. exists (S n). exists n. tauto. Qed.

Lemma fix_okt k : forall C l x r n, length C <= k -> okt l n -> okt r n -> is_redt l = false -> is_redt r = false -> okc C n ->
  exists m, okt (blk (fix_ins (N Red l x r) C)) m.
Proof.
  induction k as [|k IH]; intros C l x r n Hk Hl Hr Rl Rr Hc.
  - destruct C; [|simpl in Hk; lia]. exists (S n). simpl. eauto.
  - destruct C as [|[d1 c1 p s1] C]; [exists (S n); simpl; eauto|].
    destruct c1.
    + cbn [okc] in Hc. destruct Hc as (H1 & H2 & H3 & H4). destruct C as [|[d2 cg g u] C]; [contradiction|]. simpl in H4. subst cg.
      destruct H3 as (H5 & H6). cbn [fix_ins]. destruct (is_redt u) eqn:Hu.
      * set (t1 := mkN d2 Red (mkN d1 Black (N Red l x r) p s1) g (blk u)).
        assert (Ht1 : exists l1 r1, t1 = N Red l1 g r1 /\ okt l1 (S n) /\ okt r1 (S n) /\ is_redt l1 = false /\ is_redt r1 = false).
        { assert (A1 : okt (mkN d1 Black (N Red l x r) p s1) (S n)) by (apply okt_mkN_black; [simpl; auto|auto]).
          assert (A2 : is_redt (mkN d1 Black (N Red l x r) p s1) = false) by apply is_redt_mkN.
          assert (A3 : okt (blk u) (S n) /\ is_redt (blk u) = false).
          { destruct u as [|[] ul ua ur]; try discriminate. simpl in *. split; auto. exists n. tauto. }
          destruct A3 as [A3 A4]. unfold t1. destruct d2; cbn [mkN].
          - exists (mkN d1 Black (N Red l x r) p s1), (blk u). auto.
          - exists (blk u), (mkN d1 Black (N Red l x r) p s1). auto. }
        destruct Ht1 as (l1 & r1 & -> & B1 & B2 & B3 & B4). apply (IH C l1 g r1 (S n)); auto. simpl in Hk. lia.
      * destruct (eqd d1 d2).
        -- match goal with |- exists m, okt (blk (plug ?t _)) m => assert (HP : exists m, okt (plug t C) m) end.
           { apply (plug_okt C _ (S n)); auto.
             - apply okt_mkN_black; [simpl; auto|]. apply okt_mkN_red. auto.
             - rewrite is_redt_mkN. discriminate. }
           destruct HP as (m & HP). eapply okt_blk; eauto.
        -- match goal with |- exists m, okt (blk (plug ?t _)) m => assert (HP : exists m, okt (plug t C) m) end.
           { apply (plug_okt C _ (S n)); auto.
             - apply okt_mkN_black; apply okt_mkN_red; destruct d2; simpl; auto.
             - rewrite is_redt_mkN. discriminate. }
           destruct HP as (m & HP). eapply okt_blk; eauto.
    + cbn [fix_ins]. destruct (plug_okt (Fr d1 Black p s1 :: C) (N Red l x r) n) as (m & HP); auto.
      * simpl. auto.
      * eapply okt_blk; eauto.
Qed.

(** Going down in a balanced tree. *)
Lemma unplug_okc C : forall t m, okt (plug t C) m -> rb (plug t C) -> exists n, okt t n /\ okc C n /\
  (is_redt t = true -> match C with [] => False | f :: _ => fc f = Black end).
Proof.
  induction C as [|[d c p s] C IH]; intros t m H Hb; simpl in *.
  - exists m. repeat split; auto. destruct t as [|[] ? ? ?]; simpl in *; try discriminate.
  - destruct (IH _ _ H Hb) as (n & H1 & H2 & H3). unfold plug1 in H1, H3. simpl in H1, H3. rewrite is_redt_mkN in H3. destruct c.
    + apply okt_mkN_red in H1 as (A1 & A2 & A3 & A4). exists n. split; [auto|]. split; [|congruence]. split; [auto|]. split; [auto|]. split; [auto|]. destruct C; auto.
    + assert (Hb' : exists m', n = S m' /\ okt t m' /\ okt s m') by (destruct d; simpl in H1; destruct H1 as (m' & -> & A1 & A2); eauto).
      destruct Hb' as (m' & -> & A1 & A2). exists m'. auto.
Qed.

Definition bal (t : tree) : Prop := rb t /\ exists n, okt t n.
Lemma grows_bal t t' : bal t -> grows t t' -> bal t'.
Proof.
  intros (Hb & n & Hn) [->|(h & C & <- & ->)]; [split; eauto|]. split.
  - destruct (fix_ins _ _); simpl; auto.
  - destruct (unplug_okc C _ _ Hn Hb) as (m & H1 & H2 & _). simpl in H1. subst m. apply (fix_okt (length C) C E h E 0); simpl; auto.
Qed.

Lemma okt_hgt t : forall n, okt t n -> hgt t <= 2 * n + (if is_redt t then 1 else 0) /\ 2 ^ n <= sz t + 1.
Proof.
  induction t as [|c l IHl a r IHr]; intros n H; simpl in H.
  - subst. simpl. lia.
  - destruct c.
    + destruct H as (H1 & H2 & H3 & H4). destruct (IHl _ H1) as [A1 A2], (IHr _ H2) as [B1 B2]. rewrite H3 in A1. rewrite H4 in B1. simpl. lia.
    + destruct H as (m & -> & H1 & H2). destruct (IHl _ H1) as [A1 A2], (IHr _ H2) as [B1 B2]. simpl. destruct (is_redt l), (is_redt r); lia.
Qed.
Lemma bal_hgt t : bal t -> hgt t <= 2 * Nat.log2 (sz t + 1).
Proof.
  intros (Hb & n & Hn). destruct (okt_hgt _ _ Hn) as [H1 H2].
  assert (is_redt t = false) by (destruct t as [|[] ? ? ?]; simpl in *; auto; discriminate). rewrite H in H1.
  assert (n <= Nat.log2 (sz t + 1)) by (apply Nat.log2_le_pow2; lia). lia.
Qed.

Section Balance.
Context {T : Type}.
Implicit Types (s : st T).

Lemma hgt_sz_pow t : sz t + 1 <= 2 ^ hgt t.
Proof.
  induction t as [|c l IHl a r IHr]; simpl; [lia|].
  assert (2 ^ hgt l <= 2 ^ Nat.max (hgt l) (hgt r)) by (apply Nat.pow_le_mono_r; lia).
  assert (2 ^ hgt r <= 2 ^ Nat.max (hgt l) (hgt r)) by (apply Nat.pow_le_mono_r; lia). lia.
Qed.

(** Removing a leaf just cuts it off: nothing is rebalanced. *)
Lemma rm_leaf_ok s c z C : Core s (plug (N c E z E) C) ->
  exists s', remove_node (Some z) s = Ok (s', tt) /\ Core s' (plug E C) /\ val s' = upd (val s) z None /\ fresh s' = fresh s.
Proof.
  intros [F0 Hrb Hlnk]. assert (F : foc s (N c E z E) C) by now apply (proj2 (foc_plug _ _ _)).
  rewrite remove_node_eq. unfold remove_node'.
  pose proof (foc_node s L _ _ _ _ _ F) as (A1 & A2 & A3 & A4 & A5). cbn [child opp] in *.
  rewrite bind_rd by exact A1. rewrite bind_rd by exact A1. rewrite A3, A4. cbn [ptr is_null orb]. rewrite bind_ret.
  destruct (splice_ok _ _ _ _ _ _ F (or_introl eq_refl)) as (s1 & E1 & S1 & F1 & Co1). cbn [only_child] in *.
  rewrite (bind_ok _ _ _ _ _ E1). cbn beta. rewrite ptr_eqb_refl, bind_ret.
  assert (Az1 : alive s1 z = true) by now rewrite (same_alive _ _ z S1).
  rewrite bind_rd by exact Az1. cbn [ptr is_null negb]. rewrite andb_false_r, bind_ret.
  assert (Hi : ino (plug E C) = cpre C ++ cpost C) by (rewrite ino_plug; reflexivity).
  assert (Hi0 : ino (plug (N c E z E) C) = cpre C ++ z :: cpost C) by (rewrite ino_plug; reflexivity).
  assert (Hnd : NoDup (cpre C ++ z :: cpost C)) by (rewrite <- Hi0; now apply (foc_nodup s)).
  destruct (destroy_ok s1 (plug E C) (cpre C) z (cpost C)) as (s3 & E3 & F3 & K3 & V3 & G3); auto.
  - now apply (proj1 (foc_plug _ _ _)).
  - eapply NoDup_remove_2; eauto.
  - eapply lnk_same; [exact S1|]. rewrite <- Hi0. exact Hlnk.
  - exists s3. split; auto. split; [split; auto|].
    + apply topb_rb; [eapply rb_topb'; eauto|]. intros; exact I.
    + split; [rewrite V3; destruct S1 as (-> & _); reflexivity|rewrite G3; apply S1].
Qed.

(** A run of erase(iterator). *)
Fixpoint erases (hs : list nat) : @M T unit :=
  match hs with [] => ret tt | h :: hs' => erase_it (Some h) ;;; erases hs' end.
Lemma erases_app hs1 hs2 s s1 : erases hs1 s = Ok (s1, tt) -> erases (hs1 ++ hs2) s = erases hs2 s1.
Proof.
  revert s; induction hs1 as [|h hs1 IH]; intros s H; simpl in *.
  - now injection H as ->.
  - unfold bind in *. destruct (erase_it (Some h) s) as [[s2 []]| |]; try discriminate. now apply IH.
Qed.

(** The pointers determine the tree. *)
Lemma foc_unique s t : forall t2 C C2, foc s t C -> foc s t2 C2 -> ptr t = ptr t2 -> t = t2.
Proof.
  induction t as [|c l IHl a r IHr]; intros [|c2 l2 a2 r2] C C2 F F2 Hp; try discriminate; auto.
  simpl in Hp. injection Hp as <-.
  pose proof (foc_node s L _ _ _ _ _ F) as (A1 & A2 & A3 & A4 & A5). pose proof (foc_node s L _ _ _ _ _ F2) as (B1 & B2 & B3 & B4 & B5).
  cbn [child opp] in *.
  assert (l = l2). { eapply IHl; [apply (proj1 (foc_zip s L c l a r C)); exact F|apply (proj1 (foc_zip s L c2 l2 a r2 C2)); exact F2|congruence]. }
  assert (r = r2). { eapply IHr; [apply (proj1 (foc_zip s R c r a l C)); exact F|apply (proj1 (foc_zip s R c2 r2 a l2 C2)); exact F2|congruence]. }
  f_equal; congruence.
Qed.

Context (lt : T -> T -> bool).
Lemma rm_leaf_relT s c z C ss : RelT lt s (plug (N c E z E) C) ss ->
  exists s' ss', erase_it (Some z) s = Ok (s', tt) /\ RelT lt s' (plug E C) ss'.
Proof.
  intros R. destruct (rm_leaf_ok s c z C (r_core _ _ _ _ R)) as (s' & E1 & Co1 & _).
  assert (Hin : In z (map fst (snd ss))).
  { rewrite <- (r_ino _ _ _ _ R), ino_plug. cbn [ino app]. apply in_or_app. right. now left. }
  apply in_map_iff in Hin as ((z' & v) & Hz & Hin). simpl in Hz. subst z'. apply in_split in Hin as (l1 & l2 & El).
  destruct ss as [h l]. cbn [snd] in El. subst l.
  destruct (erase_rel lt s h l1 z v l2) as (s2 & E2 & (t2 & R2)); [eexists; exact R|].
  assert (s2 = s') by (unfold erase_it in E2; congruence). subst s2. exists s'. eexists. split; [exact E2|].
  replace (plug E C) with t2; [exact R2|].
  eapply foc_unique; [apply R2|apply Co1|]. pose proof (fx _ _ _ (c_foc _ _ (r_core _ _ _ _ R2))) as H1. pose proof (fx _ _ _ (c_foc _ _ Co1)) as H2.
  simpl in H1, H2. congruence.
Qed.

Lemma prune_all t : forall C s ss, RelT lt s (plug t C) ss ->
  exists hs s' ss', erases hs s = Ok (s', tt) /\ RelT lt s' (plug E C) ss'.
Proof.
  induction t as [|c l IHl a r IHr]; intros C s ss Co.
  - exists [], s, ss. split; [reflexivity|]. auto.
  - destruct (IHl (Fr L c a r :: C) s ss Co) as (h1 & s1 & ss1 & E1 & Co1).
    destruct (IHr (Fr R c a E :: C) s1 ss1 Co1) as (h2 & s2 & ss2 & E2 & Co2).
    destruct (rm_leaf_relT s2 c a C ss2 Co2) as (s3 & ss3 & E3 & Co3).
    exists (h1 ++ h2 ++ [a]), s3, ss3. split; auto.
    rewrite (erases_app _ _ _ _ E1), (erases_app _ _ _ _ E2). simpl. rewrite (bind_ok _ _ _ _ _ E3). reflexivity.
Qed.

(** Leave only a longest path. *)
Lemma prune_path t : forall C s ss, RelT lt s (plug t C) ss ->
  exists hs s' t' ss', erases hs s = Ok (s', tt) /\ RelT lt s' (plug t' C) ss' /\ sz t' = hgt t /\ hgt t' = hgt t.
Proof.
  induction t as [|c l IHl a r IHr]; intros C s ss Co.
  - exists [], s, E, ss. split; [reflexivity|]. auto.
  - destruct (le_ge_dec (hgt r) (hgt l)) as [Hc|Hc].
    + destruct (prune_all r (Fr R c a l :: C) s ss Co) as (h1 & s1 & ss1 & E1 & Co1).
      destruct (IHl (Fr L c a E :: C) s1 ss1 Co1) as (h2 & s2 & t' & ss2 & E2 & Co2 & A1 & A2).
      exists (h1 ++ h2), s2, (N c t' a E), ss2. split; [rewrite (erases_app _ _ _ _ E1); exact E2|]. split; auto. simpl. lia.
    + destruct (prune_all l (Fr L c a r :: C) s ss Co) as (h1 & s1 & ss1 & E1 & Co1).
      destruct (IHr (Fr R c a E :: C) s1 ss1 Co1) as (h2 & s2 & t' & ss2 & E2 & Co2 & A1 & A2).
      exists (h1 ++ h2), s2, (N c E a t'), ss2. split; [rewrite (erases_app _ _ _ _ E1); exact E2|]. split; auto. simpl. lia.
Qed.

(** *** The depth at which a node is found *)
Fixpoint dep (t : tree) (a : nat) : nat :=
  match t with
  | E => 0
  | N _ l b r => if b =? a then 0 else if tm l a =? 0 then S (dep r a) else S (dep l a)
  end.
Lemma dep_plug C : forall t a, 1 <= tm t a -> (forall b, tm (plug t C) b <= 1) -> dep (plug t C) a = dep t a + length C.
Proof.
  induction C as [|[d c p s] C IH]; intros t a Ht Hn; simpl; [lia|].
  rewrite IH.
  - assert (Hp : tm (plug1 t (Fr d c p s)) a <= 1). { specialize (Hn a). cbn [plug] in Hn. rewrite tm_plug in Hn. lia. }
    assert (Hd : dep (plug1 t (Fr d c p s)) a = S (dep t a)).
    { unfold plug1 in *. simpl in *. destruct d; simpl in *.
      - destruct (Nat.eqb_spec p a); [lia|]. destruct (Nat.eqb_spec (tm t a) 0); [lia|]. reflexivity.
      - destruct (Nat.eqb_spec p a); [lia|]. destruct (Nat.eqb_spec (tm s a) 0); [|lia]. reflexivity. }
    rewrite Hd. lia.
  - unfold plug1. rewrite tm_mkN. simpl. lia.
  - exact Hn.
Qed.
Lemma deepest t : t <> E -> exists c l a r C, t = plug (N c l a r) C /\ S (length C) = hgt t.
Proof.
  assert (G : forall t0 C0 f0, plug t0 (C0 ++ [f0]) = plug1 (plug t0 C0) f0).
  { intros t0 C0; revert t0; induction C0; simpl; auto. }
  induction t as [|c l IHl a r IHr]; intros Hne; [congruence|].
  destruct (le_ge_dec (hgt r) (hgt l)) as [Hc|Hc].
  - destruct l as [|lc ll la lr]; [exists c, E, a, r, []; simpl in *; split; [auto|lia]|].
    destruct IHl as (c1 & l1 & a1 & r1 & C1 & E1 & H1); [discriminate|].
    exists c1, l1, a1, r1, (C1 ++ [Fr L c a r]). rewrite G, <- E1, app_length. split; [reflexivity|]. cbn [hgt length] in *. lia.
  - destruct r as [|rc rl ra rr]; [exists c, l, a, E, []; simpl in *; split; [auto|lia]|].
    destruct IHr as (c1 & l1 & a1 & r1 & C1 & E1 & H1); [discriminate|].
    exists c1, l1, a1, r1, (C1 ++ [Fr R c a l]). rewrite G, <- E1, app_length. split; [reflexivity|]. cbn [hgt length] in *. lia.
Qed.

(** The loop needs one iteration per frame on the way down. *)
Lemma find_loop_fuel {B} s ltk gtk (acc : option nat -> B -> @M T B) :
  (forall x b st', exists b', acc x b st' = Ok (st', b')) ->
  forall t f C b, foc s t C -> f + length C <= length (snd (srch (dk s ltk gtk) t C)) ->
  find_loop f ltk gtk acc acc (ptr t) b s = UB.
Proof.
  intros Ha t. induction t as [|c l IHl a r IHr]; intros f C b F Hf; (destruct f as [|f]; [reflexivity|]); cbn [srch] in Hf; cbn [find_loop ptr is_null].
  - simpl in Hf. lia.
  - pose proof (foc_node s L _ _ _ _ _ F) as (A1 & A2 & A3 & A4 & A5). cbn [child opp] in *.
    destruct (alive_val _ _ A1) as (v & Hv). rewrite (rd_val_run _ _ _ _ Hv).
    unfold dk in Hf at 1. rewrite Hv in Hf.
    destruct (ltk v); [|destruct (gtk v)].
    + destruct (Ha (Some a) b s) as (b1 & E1). rewrite (bind_ok _ _ _ _ _ E1). rewrite bind_rd by exact A1. rewrite A3.
      apply (IHl f (Fr L c a r :: C)); [apply (proj1 (foc_zip s L c l a r C)); exact F|simpl; lia].
    + destruct (Ha (Some a) b s) as (b1 & E1). rewrite (bind_ok _ _ _ _ _ E1). rewrite bind_rd by exact A1. rewrite A4.
      apply (IHr f (Fr R c a l :: C)); [apply (proj1 (foc_zip s R c r a l C)); exact F|simpl; lia].
    + simpl in Hf. lia.
Qed.
End Balance.

(** Running the erasures as calls of a program. *)
Lemma vrun_erases {T K} (lt : T -> T -> bool) (l1 : K -> T -> bool) (l2 : T -> K -> bool) hs : forall e s s', e 0 = Some s -> erases hs s = Ok (s', tt) ->
  exists e' vs, vrun lt l1 l2 e (map (VEraseIt 0) hs) = Ok (e', vs) /\ e' 0 = Some s'.
Proof.
  induction hs as [|h hs IH]; intros e s s' He H; simpl in *.
  - injection H as <-. exists e, []. auto.
  - unfold bind in H. destruct (erase_it (Some h) s) as [[s1 []]| |] eqn:E1; try discriminate.
    unfold on. rewrite He, E1. cbn [rbind]. destruct (IH (upd e 0 (Some s1)) s1 s') as (e' & vs & E2 & H2); [apply upd_eq|exact H|].
    rewrite E2. cbn [rbind]. eauto.
Qed.
