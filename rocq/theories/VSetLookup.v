(** The lookups of vector_set on ghost trees. *)
From Verif Require Import Common VSetModel VSetTree VSetRotate VSetInsert.
From Coq Require Import ZifyBool ZifyNat Sorted.

Section Lookup.
Context {T : Type}.
Implicit Types (s : st T).

Definition lasto {A} (l : list A) : option A := hd_error (rev l).
Lemma lasto_app {A} (l1 l2 : list A) : lasto (l1 ++ l2) = match lasto l2 with Some x => Some x | None => lasto l1 end.
Proof. unfold lasto. rewrite rev_app_distr. destruct (rev l2); reflexivity. Qed.
Lemma lasto_snoc {A} (l : list A) x : lasto (l ++ [x]) = Some x.
Proof. unfold lasto. now rewrite rev_app_distr. Qed.
Lemma lasto_none {A} (l : list A) : lasto l = None -> l = [].
Proof. unfold lasto. intros H. rewrite <- (rev_involutive l). destruct (rev l); [reflexivity|discriminate]. Qed.
Lemma hd_app {A} (l1 l2 : list A) : hd_error (l1 ++ l2) = match hd_error l1 with Some x => Some x | None => hd_error l2 end.
Proof. destruct l1; reflexivity. Qed.

(** *** Searching by key *)
Definition dk s (ltk gtk : T -> bool) (a : nat) : option dir :=
  match val s a with
  | Some v => if ltk v then Some L else if gtk v then Some R else None
  | None => None
  end.

Fixpoint srch (g : nat -> option dir) (t : tree) (C : ctx) : tree * ctx :=
  match t with
  | E => (E, C)
  | N c l a r => match g a with
                 | Some L => srch g l (Fr L c a r :: C)
                 | Some R => srch g r (Fr R c a l :: C)
                 | None => (t, C)
                 end
  end.

Lemma srch_ext g g' t C : (forall a, In a (ino t) -> g a = g' a) -> srch g t C = srch g' t C.
Proof.
  revert C; induction t as [|c l IHl a r IHr]; intros C H; simpl in *; auto.
  rewrite (H a) by (apply in_or_app; right; now left). destruct (g' a) as [[]|]; auto.
  - apply IHl. intros b Hb. apply H. apply in_or_app; auto.
  - apply IHr. intros b Hb. apply H. apply in_or_app; right; now right.
Qed.

Lemma srch_plug g t C : plug (fst (srch g t C)) (snd (srch g t C)) = plug t C.
Proof.
  revert C; induction t as [|c l IHl a r IHr]; intros C; simpl; auto.
  destruct (g a) as [[]|]; auto.
  - rewrite IHl. reflexivity.
  - rewrite IHr. reflexivity.
Qed.

Lemma srch_foc s g t C : foc s t C -> foc s (fst (srch g t C)) (snd (srch g t C)).
Proof. intros F. apply foc_plug. rewrite srch_plug. now apply (proj1 (foc_plug _ _ _)). Qed.

Lemma rd_val_run {B} s a v (k : T -> @M T B) : val s a = Some v -> bind (rd_val (Some a)) k s = k v s.
Proof. intros H. unfold bind, rd_val. now rewrite H. Qed.

Lemma alive_val s a : alive s a = true -> exists v, val s a = Some v.
Proof. unfold alive. destruct (val s a); eauto; discriminate. Qed.

Fixpoint hgt (t : tree) : nat := match t with E => 0 | N _ l _ r => S (Nat.max (hgt l) (hgt r)) end.
Lemma hgt_sz t : hgt t <= sz t.
Proof. induction t; simpl; lia. Qed.

Lemma find_loop_ok {B} s ltk gtk (accl accr : option nat -> B -> @M T B) (I : ctx -> B -> Prop) :
  (forall c l a r C b, foc s (N c l a r) C -> I C b -> exists b', accl (Some a) b s = Ok (s, b') /\ I (Fr L c a r :: C) b') ->
  (forall c l a r C b, foc s (N c l a r) C -> I C b -> exists b', accr (Some a) b s = Ok (s, b') /\ I (Fr R c a l :: C) b') ->
  forall t f C b, hgt t < f -> foc s t C -> I C b ->
  exists b', find_loop f ltk gtk accl accr (ptr t) b s =
     Ok (s, (ptr (fst (srch (dk s ltk gtk) t C)), b')) /\ I (snd (srch (dk s ltk gtk) t C)) b'.
Proof.
  intros HL HR t. induction t as [|c l IHl a r IHr]; intros f C b Hf F HI; (destruct f as [|f]; [lia|]); cbn [find_loop ptr is_null].
  - exists b. split; [reflexivity|exact HI].
  - pose proof (foc_node s L _ _ _ _ _ F) as (A1 & A2 & A3 & A4 & A5). cbn [child opp] in *.
    destruct (alive_val _ _ A1) as (v & Hv). rewrite (rd_val_run _ _ _ _ Hv).
    assert (Hdk : dk s ltk gtk a = if ltk v then Some L else if gtk v then Some R else None) by (unfold dk; now rewrite Hv).
    cbn [srch]. rewrite Hdk. clear Hdk. simpl in Hf.
    destruct (ltk v); [|destruct (gtk v)].
    + destruct (HL _ _ _ _ _ _ F HI) as (b1 & E1 & I1). rewrite (bind_ok _ _ _ _ _ E1).
      rewrite bind_rd by exact A1. rewrite A3. apply IHl; auto; [lia|].
      apply (proj1 (foc_zip s L c l a r C)). exact F.
    + destruct (HR _ _ _ _ _ _ F HI) as (b1 & E1 & I1). rewrite (bind_ok _ _ _ _ _ E1).
      rewrite bind_rd by exact A1. rewrite A4. apply IHr; auto; [lia|].
      apply (proj1 (foc_zip s R c r a l C)). exact F.
    + exists b. split; [reflexivity|exact HI].
Qed.

Lemma find_acc_ok {B} s ltk gtk (accl accr : option nat -> B -> @M T B) (I : ctx -> B -> Prop) t b0 :
  (forall c l a r C b, foc s (N c l a r) C -> I C b -> exists b', accl (Some a) b s = Ok (s, b') /\ I (Fr L c a r :: C) b') ->
  (forall c l a r C b, foc s (N c l a r) C -> I C b -> exists b', accr (Some a) b s = Ok (s, b') /\ I (Fr R c a l :: C) b') ->
  foc s t [] -> I [] b0 ->
  exists b', find_node_acc ltk gtk accl accr b0 s =
     Ok (s, (ptr (fst (srch (dk s ltk gtk) t [])), b')) /\ I (snd (srch (dk s ltk gtk) t [])) b'.
Proof.
  intros HL HR F HI. pose proof (foc_length _ _ _ F) as Hlen.
  destruct (find_loop_ok s ltk gtk accl accr I HL HR t (S (fresh s)) [] b0) as (b' & E' & I'); auto; [pose proof (hgt_sz t); lia|].
  exists b'. split; auto. unfold find_node_acc. change (bind get_root ?k s) with (k (root s) s). cbv beta.
  pose proof (fx _ _ _ F) as Hr. simpl in Hr. rewrite Hr. exact E'.
Qed.

Lemma left_count_ok s c l a r C : foc s (N c l a r) C -> left_count (Some a) s = Ok (s, sz l).
Proof.
  intros F. pose proof (foc_node s L _ _ _ _ _ F) as (A1 & A2 & A3 & A4 & A5). cbn [child opp] in *.
  unfold left_count. rewrite bind_rd by exact A1. rewrite A3. destruct l as [|cl ll la lr]; cbn [ptr is_null]; [reflexivity|].
  apply (proj1 (foc_zip s L c _ a r C)) in F. pose proof (foc_node s L _ _ _ _ _ F) as (B1 & _).
  rewrite bind_rd by exact B1. pose proof (ftc _ _ _ F) as (Hc & _). rewrite Hc. reflexivity.
Qed.

Lemma find_node_ok s t ltk gtk : foc s t [] ->
  find_node ltk gtk s = Ok (s, ptr (fst (srch (dk s ltk gtk) t []))).
Proof.
  intros F. destruct (find_acc_ok s ltk gtk (fun _ b => ret b) (fun _ b => ret b) (fun _ _ => True) t tt)
    as (b & Hb & _); auto; try (intros; eexists; split; [reflexivity|exact I]). unfold find_node. rewrite (bind_ok _ _ _ _ _ Hb). reflexivity.
Qed.

Lemma find_parent_ok s t ltk gtk : foc s t [] ->
  find_node_parent ltk gtk s = Ok (s, (ptr (fst (srch (dk s ltk gtk) t [])), up (snd (srch (dk s ltk gtk) t [])))).
Proof.
  intros F. destruct (find_acc_ok s ltk gtk (fun x _ => ret x) (fun x _ => ret x) (fun C b => b = up C) t None)
    as (b & Hb & Hi); auto; try (intros; eexists; split; reflexivity). unfold find_node_parent. rewrite Hb, Hi. reflexivity.
Qed.

Lemma find_index_ok s t ltk gtk : foc s t [] ->
  find_index ltk gtk s = Ok (s, match srch (dk s ltk gtk) t [] with
                                | (N _ l a _, C) => Some (a, length (cpre C ++ ino l))
                                | (E, _) => None end).
Proof.
  intros F. destruct (find_acc_ok s ltk gtk (fun _ b => ret b)
          (fun x rank => lc <- left_count x ;; ret (rank + (lc + 1))) (fun C b => b = length (cpre C)) t 0)
    as (b & Hb & Hi); auto.
  - intros c l a r C b FF ->. eexists; split; reflexivity.
  - intros c l a r C b FF ->. rewrite (bind_ok _ _ _ _ _ (left_count_ok _ _ _ _ _ _ FF)). eexists; split; [reflexivity|].
    simpl. rewrite !app_length. simpl. rewrite sz_ino. lia.
  - unfold find_index. rewrite (bind_ok _ _ _ _ _ Hb). cbn [fst snd].
    pose proof (srch_foc s (dk s ltk gtk) t [] F) as F1.
    destruct (srch (dk s ltk gtk) t []) as [[|c l a r] C]; cbn [fst snd ptr] in *; [reflexivity|].
    rewrite (bind_ok _ _ _ _ _ (left_count_ok _ _ _ _ _ _ F1)). rewrite Hi, app_length, sz_ino.
    unfold ret. do 4 f_equal. lia.
Qed.

Lemma bound_ok s t ltk gtk : foc s t [] ->
  find_bound ltk gtk s = Ok (s, match srch (dk s ltk gtk) t [] with
                                | (N _ _ a _, _) => (Some a, true)
                                | (E, C) => (hd_error (cpost C), false) end).
Proof.
  intros F. pose proof (foc_length _ _ _ F) as Hlen.
  unfold find_bound. change (bind get_root ?k s) with (k (root s) s). cbv beta.
  pose proof (fx _ _ _ F) as Hr. simpl in Hr. rewrite Hr. unfold fuelled.
  assert (G : forall t f C, sz t < f -> foc s t C ->
     bound_loop f ltk gtk (ptr t) (hd_error (cpost C)) s =
       Ok (s, match srch (dk s ltk gtk) t C with
                                | (N _ _ a _, _) => (Some a, true)
                                | (E, C) => (hd_error (cpost C), false) end)).
  { clear. induction t as [|c l IHl a r IHr]; intros f C Hf F; (destruct f as [|f]; [lia|]); cbn [bound_loop ptr is_null].
    - reflexivity.
    - pose proof (foc_node s L _ _ _ _ _ F) as (A1 & A2 & A3 & A4 & A5). cbn [child opp] in *.
      destruct (alive_val _ _ A1) as (v & Hv). rewrite (rd_val_run _ _ _ _ Hv).
      assert (Hdk : dk s ltk gtk a = if ltk v then Some L else if gtk v then Some R else None) by (unfold dk; now rewrite Hv).
    cbn [srch]. rewrite Hdk. clear Hdk. simpl in Hf.
      destruct (ltk v); [|destruct (gtk v)]; [| |reflexivity].
      + rewrite bind_rd by exact A1. rewrite A3. apply (IHl f (Fr L c a r :: C)); [lia|].
        apply (proj1 (foc_zip s L c l a r C)). exact F.
      + rewrite bind_rd by exact A1. rewrite A4. apply (IHr f (Fr R c a l :: C)); [lia|].
        apply (proj1 (foc_zip s R c r a l C)). exact F. }
  apply (G t (S (fresh s)) []); auto. lia.
Qed.

(** *** The order of the keys along the tree *)
Definition mono (g : nat -> option dir) (l : list nat) : Prop :=
  StronglySorted (fun a b => (g a = Some L -> g b = Some L) /\ (g b = Some R -> g a = Some R)) l.

Lemma ss_mid {A} (P : A -> A -> Prop) l1 a l2 :
  StronglySorted P (l1 ++ a :: l2) -> Forall (fun x => P x a) l1 /\ Forall (P a) l2.
Proof.
  induction l1 as [|x l1 IH]; simpl; intros H; inversion H as [|? ? H1 H2]; subst.
  - split; [constructor|assumption].
  - destruct (IH H1) as [H3 H4]. split; [|exact H4]. constructor; auto.
    rewrite Forall_forall in H2. apply H2. apply in_or_app. right. now left.
Qed.

Lemma ss_app_inv {A} (P : A -> A -> Prop) l1 l2 :
  StronglySorted P (l1 ++ l2) -> StronglySorted P l1 /\ StronglySorted P l2 /\ Forall (fun x => Forall (P x) l2) l1.
Proof.
  induction l1 as [|x l1 IH]; simpl; intros H; [repeat split; [constructor|assumption|constructor]|].
  inversion H as [|? ? H1 H2]; subst. destruct (IH H1) as (H3 & H4 & H5). apply Forall_app in H2 as [H6 H7].
  repeat split; auto; constructor; auto.
Qed.
Lemma ss_app {A} (P : A -> A -> Prop) l1 l2 :
  StronglySorted P l1 -> StronglySorted P l2 -> Forall (fun x => Forall (P x) l2) l1 -> StronglySorted P (l1 ++ l2).
Proof.
  induction l1 as [|x l1 IH]; simpl; intros H1 H2 H3; auto.
  inversion H1; subst. inversion H3; subst. constructor; auto. apply Forall_app; auto.
Qed.

Lemma srch_sound g t : forall C, mono g (ino (plug t C)) ->
  Forall (fun a => g a = Some R) (cpre C) -> Forall (fun a => g a = Some L) (cpost C) ->
  Forall (fun a => g a = Some R) (cpre (snd (srch g t C))) /\
  Forall (fun a => g a = Some L) (cpost (snd (srch g t C))) /\
  match fst (srch g t C) with E => True | N _ _ a _ => g a = None end.
Proof.
  induction t as [|c l IHl a r IHr]; intros C Hm Hpre Hpost; simpl; auto.
  rewrite ino_plug in Hm. simpl in Hm.
  replace (cpre C ++ (ino l ++ a :: ino r) ++ cpost C) with ((cpre C ++ ino l) ++ a :: (ino r ++ cpost C)) in Hm
    by (rewrite <- !app_assoc; simpl; reflexivity).
  destruct (ss_mid _ _ _ _ Hm) as [Hb Ha].
  destruct (g a) as [[]|] eqn:Hg.
  - apply IHl; auto.
    + change (mono g (ino (plug (N c l a r) C))). rewrite ino_plug. simpl. rewrite <- app_assoc in Hm. simpl in Hm. now rewrite <- app_assoc.
    + simpl. constructor; auto. eapply Forall_impl; [|exact Ha]. intros b (H & _). auto.
  - apply IHr; auto.
    + change (mono g (ino (plug (N c l a r) C))). rewrite ino_plug. simpl. rewrite <- app_assoc in Hm. simpl in Hm. now rewrite <- app_assoc.
    + simpl. apply Forall_app in Hb as [_ Hb]. apply Forall_app. split; auto. apply Forall_app. split; [|auto].
      eapply Forall_impl; [|exact Hb]. intros b (_ & H). auto.
  - auto.
Qed.

(** *** Neighbours *)
Lemma go_right_ok s t : forall f C, sz t < f -> foc s t C -> t <> E -> go_right f (ptr t) s = Ok (s, lasto (ino t)).
Proof.
  induction t as [|c l IHl a r IHr]; intros f C Hf F Hne; [congruence|]. destruct f as [|f]; [lia|]. cbn [go_right ptr].
  pose proof (foc_node s L _ _ _ _ _ F) as (A1 & A2 & A3 & A4 & A5). cbn [child opp] in *. simpl in Hf.
  rewrite bind_rd by exact A1. rewrite A4. destruct r as [|cr rl ra rr]; cbn [ptr is_null].
  - simpl. rewrite lasto_app. reflexivity.
  - change (Some ra) with (ptr (N cr rl ra rr)). rewrite (IHr f (Fr R c a l :: C)).
    + cbn [ino]. rewrite (lasto_app (ino l)). change (a :: ino rl ++ ra :: ino rr) with ([a] ++ (ino rl ++ ra :: ino rr)).
      rewrite (lasto_app [a]). destruct (lasto (ino rl ++ ra :: ino rr)) eqn:Hl; auto.
      apply lasto_none in Hl. destruct (ino rl); discriminate.
    + simpl in *. lia.
    + apply (proj1 (foc_zip s R c _ a l C)). exact F.
    + discriminate.
Qed.

Lemma climb_left_ok s C : forall f t a, length C < f -> foc s t C -> ptr t = Some a ->
  climb_while_left f (Some a) (up C) s = Ok (s, lasto (cpre C)).
Proof.
  induction C as [|[d c p sb] C IH]; intros f t a Hf F Ht; (destruct f as [|f]; [simpl in Hf; lia|]); cbn [climb_while_left up is_null fa].
  - reflexivity.
  - destruct t as [|tc tl ta tr]; [discriminate|]. simpl in Ht. injection Ht as ->.
    pose proof (foc_frame _ _ _ _ _ _ _ F) as (B1 & B2 & B3 & B4 & B5).
    rewrite bind_rd by exact B1. destruct d; cbn [child opp] in *.
    + rewrite B3. cbn [ptr]. rewrite ptr_eqb_refl. rewrite bind_rd by exact B1. rewrite B2.
      apply (proj2 (foc_zip _ _ _ _ _ _ _)) in F. apply (IH f _ p) in F; [|simpl in Hf; lia|apply ptr_mkN]. rewrite F. reflexivity.
    + rewrite B4, ptr_eqb_neq.
      * simpl. rewrite app_assoc. rewrite lasto_snoc. reflexivity.
      * intros HH. symmetry in HH. revert HH. apply ptr_neq_tm.
        pose proof (fnd _ _ _ F a) as Hn. simpl in Hn. rewrite Nat.eqb_refl in Hn. lia.
Qed.

Lemma get_predecessor_ok s c l a r C : foc s (N c l a r) C ->
  get_predecessor (Some a) s = Ok (s, lasto (cpre C ++ ino l)).
Proof.
  intros F. pose proof (foc_length _ _ _ F) as Hlen. simpl in Hlen.
  pose proof (foc_node s L _ _ _ _ _ F) as (A1 & A2 & A3 & A4 & A5). cbn [child opp] in *.
  unfold get_predecessor. rewrite bind_rd by exact A1. rewrite A3. destruct l as [|cl ll la lr]; cbn [ptr is_null].
  - rewrite bind_rd by exact A1. rewrite A2. simpl. rewrite app_nil_r. unfold fuelled.
    eapply climb_left_ok; [|exact F|reflexivity]. lia.
  - unfold fuelled. change (Some la) with (ptr (N cl ll la lr)). rewrite (go_right_ok s _ _ (Fr L c a r :: C)).
    + rewrite lasto_app. destruct (lasto (ino (N cl ll la lr))) eqn:Hl; auto.
      apply lasto_none in Hl. simpl in Hl. destruct (ino ll); discriminate.
    + simpl in *. lia.
    + apply (proj1 (foc_zip s L c _ a r C)). exact F.
    + discriminate.
Qed.

(** The leftmost node of a subtree, with its context. *)
Lemma go_left_ok s t : forall f C, sz t < f -> foc s t C -> t <> E ->
  exists c y r Cr, go_left f (ptr t) s = Ok (s, Some y) /\ t = plug (N c E y r) Cr /\ cpre Cr = [].
Proof.
  induction t as [|c l IHl a r IHr]; intros f C Hf F Hne; [congruence|]. destruct f as [|f]; [lia|]. cbn [go_left ptr].
  pose proof (foc_node s L _ _ _ _ _ F) as (A1 & A2 & A3 & A4 & A5). cbn [child opp] in *. simpl in Hf.
  rewrite bind_rd by exact A1. rewrite A3. destruct l as [|cl ll la lr]; cbn [ptr is_null].
  - exists c, a, r, []. auto.
  - destruct (IHl f (Fr L c a r :: C)) as (c1 & y & r1 & Cr & E1 & E2 & E3).
    + simpl in *; lia.
    + apply (proj1 (foc_zip s L c _ a r C)). exact F.
    + discriminate.
    + exists c1, y, r1, (Cr ++ [Fr L c a r]). split; [exact E1|]. split.
      * assert (G : forall t0 C0 f0, plug t0 (C0 ++ [f0]) = plug1 (plug t0 C0) f0).
        { intros t0 C0; revert t0; induction C0; simpl; auto. }
        rewrite G, <- E2. reflexivity.
      * clear -E3. assert (G : forall C0, cpre (C0 ++ [Fr L c a r]) = cpre C0).
        { induction C0 as [|[[] ? ? ?] C0 IH]; simpl; auto. now rewrite IH. }
        now rewrite G.
Qed.

(** *** Order statistics *)
Lemma index_loop_ok s t : forall f C i, hgt t < f -> foc s t C -> index_loop f (ptr t) i s = Ok (s, nth_error (ino t) i).
Proof.
  induction t as [|c l IHl a r IHr]; intros f C i Hf F; (destruct f as [|f]; [lia|]); cbn [index_loop ptr is_null].
  - now destruct i.
  - pose proof (foc_node s L _ _ _ _ _ F) as (A1 & A2 & A3 & A4 & A5). cbn [child opp] in *. simpl in Hf.
    rewrite (bind_ok _ _ _ _ _ (left_count_ok _ _ _ _ _ _ F)). cbn [ino]. rewrite sz_ino in *.
    destruct (i <? length (ino l)) eqn:H1.
    + rewrite bind_rd by exact A1. rewrite A3. rewrite (IHl f (Fr L c a r :: C)).
      * rewrite nth_error_app1 by lia. reflexivity.
      * lia.
      * apply (proj1 (foc_zip s L c l a r C)). exact F.
    + destruct (length (ino l) <? i) eqn:H2.
      * rewrite bind_rd by exact A1. rewrite A4. rewrite (IHr f (Fr R c a l :: C)).
        -- rewrite nth_error_app2 by lia. replace (i - length (ino l)) with (S (i - (length (ino l) + 1))) by lia. reflexivity.
        -- rewrite ?sz_ino in *. lia.
        -- apply (proj1 (foc_zip s R c r a l C)). exact F.
      * rewrite nth_error_app2 by lia. replace (i - length (ino l)) with 0 by lia. reflexivity.
Qed.

Lemma find_by_index_ok s t i : foc s t [] -> find_by_index_node i s = Ok (s, nth_error (ino t) i).
Proof.
  intros F. pose proof (foc_length _ _ _ F) as Hlen.
  unfold find_by_index_node. change (bind get_root ?k s) with (k (root s) s). cbv beta.
  pose proof (fx _ _ _ F) as Hr. simpl in Hr. rewrite Hr. unfold fuelled. eapply index_loop_ok; eauto. pose proof (hgt_sz t). lia.
Qed.

Lemma index_of_loop_ok s C : forall f t a i, length C < f -> foc s t C -> ptr t = Some a ->
  index_of_loop f (Some a) i s = Ok (s, i + length (cpre C)).
Proof.
  induction C as [|[d c p sb] C IH]; intros f t a i Hf F Ht; (destruct f as [|f]; [simpl in Hf; lia|]); cbn [index_of_loop];
    destruct t as [|tc tl ta tr]; try discriminate; simpl in Ht; injection Ht as ->;
    pose proof (foc_node s L _ _ _ _ _ F) as (A1 & A2 & _); rewrite bind_rd by exact A1; rewrite A2; cbn [up is_null fa].
  - simpl. unfold ret. do 2 f_equal. lia.
  - pose proof (foc_frame _ _ _ _ _ _ _ F) as (B1 & B2 & B3 & B4 & B5).
    rewrite bind_rd by exact B1.
    pose proof F as F1. apply (proj2 (foc_zip _ _ _ _ _ _ _)) in F1.
    destruct d; cbn [child opp] in *.
    + rewrite B4. rewrite ptr_eqb_neq.
      2:{ intros HH. symmetry in HH. revert HH. apply ptr_neq_tm.
          pose proof (fnd _ _ _ F a) as Hn. simpl in Hn. rewrite Nat.eqb_refl in Hn. lia. }
      rewrite bind_ret. rewrite (IH f (mkN L c (N tc tl a tr) p sb) p i); auto; [simpl in Hf; lia].
    + rewrite B3. cbn [ptr]. rewrite ptr_eqb_refl. cbn [mkN] in F1.
      rewrite bind_assoc. rewrite (bind_ok _ _ _ _ _ (left_count_ok _ _ _ _ _ _ F1)). rewrite bind_ret.
      rewrite (IH f (N c sb p (N tc tl a tr)) p); auto; [|simpl in Hf; lia].
      simpl. rewrite !app_length, sz_ino. simpl. do 2 f_equal. lia.
Qed.

Lemma index_of_ok s c l a r C : foc s (N c l a r) C -> index_of_node (Some a) s = Ok (s, length (cpre C ++ ino l)).
Proof.
  intros F. pose proof (foc_length _ _ _ F) as Hlen. simpl in Hlen.
  unfold index_of_node. rewrite (bind_ok _ _ _ _ _ (left_count_ok _ _ _ _ _ _ F)). unfold fuelled.
  rewrite (index_of_loop_ok s C _ (N c l a r) a); auto; [|lia]. rewrite app_length, sz_ino. do 2 f_equal. lia.
Qed.

Lemma size_ok s t : foc s t [] -> size s = Ok (s, length (ino t)).
Proof.
  intros F. unfold size. change (bind get_root ?k s) with (k (root s) s). cbv beta.
  pose proof (fx _ _ _ F) as Hr. simpl in Hr. rewrite Hr. destruct t as [|c l a r]; cbn [ptr is_null]; [reflexivity|].
  pose proof (foc_node s L _ _ _ _ _ F) as (A1 & _). rewrite bind_rd by exact A1.
  pose proof (ftc _ _ _ F) as (Hc & _). rewrite Hc. unfold ret. rewrite <- sz_ino. reflexivity.
Qed.
Lemma empty_ok s t : foc s t [] -> empty s = Ok (s, length (ino t) =? 0).
Proof.
  intros F. unfold empty. change (bind get_root ?k s) with (k (root s) s). cbv beta.
  pose proof (fx _ _ _ F) as Hr. simpl in Hr. rewrite Hr. rewrite <- sz_ino. destruct t as [|c l a r]; simpl; [reflexivity|].
  unfold ret. replace (sz l + sz r + 1 =? 0) with false; [reflexivity|]. symmetry. apply Nat.eqb_neq. lia.
Qed.

(** Every address of the tree has a position. *)
Lemma locate t a : In a (ino t) -> exists c l r C, t = plug (N c l a r) C.
Proof.
  induction t as [|c l IHl b r IHr]; simpl; [tauto|]. intros H. apply in_app_or in H as [H|[->|H]].
  - destruct (IHl H) as (c1 & l1 & r1 & C1 & ->). exists c1, l1, r1, (C1 ++ [Fr L c b r]).
    assert (G : forall t0 C0 f0, plug t0 (C0 ++ [f0]) = plug1 (plug t0 C0) f0).
    { intros t0 C0; revert t0; induction C0; simpl; auto. }
    now rewrite G.
  - exists c, l, r, []. reflexivity.
  - destruct (IHr H) as (c1 & l1 & r1 & C1 & ->). exists c1, l1, r1, (C1 ++ [Fr R c b l]).
    assert (G : forall t0 C0 f0, plug t0 (C0 ++ [f0]) = plug1 (plug t0 C0) f0).
    { intros t0 C0; revert t0; induction C0; simpl; auto. }
    now rewrite G.
Qed.

Lemma nodup_split {A} (a : A) l1 l2 l3 l4 :
  NoDup (l1 ++ a :: l2) -> l1 ++ a :: l2 = l3 ++ a :: l4 -> l1 = l3 /\ l2 = l4.
Proof.
  revert l3. induction l1 as [|x l1 IH]; intros l3 Hn He; destruct l3 as [|y l3]; simpl in *.
  - injection He as He. auto.
  - injection He as <- He. subst. inversion Hn as [|? ? H1 H2]; subst. exfalso. apply H1. apply in_or_app. right. now left.
  - injection He as -> He. inversion Hn as [|? ? H1 H2]; subst. exfalso. apply H1. apply in_or_app. right. now left.
  - injection He as <- He. inversion Hn; subst. destruct (IH l3) as [-> ->]; auto.
Qed.
End Lookup.
