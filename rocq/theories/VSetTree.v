(** Ghost trees for the vector_set model: the pointer structure reachable from the
    root is a binary tree; a position in it is a subtree plus its context. *)
From Verif Require Import Common VSetModel.
From Coq Require Import Permutation ZifyBool ZifyNat.

Notation "x <- m ;; k" := (bind m (fun x => k)) (at level 61, m at next level, right associativity).
Notation "m ;;; k" := (bind m (fun _ => k)) (at level 61, right associativity).

Inductive dir := L | R.
Definition opp (d : dir) : dir := match d with L => R | R => L end.

Inductive tree := E | N (c : color) (l : tree) (a : nat) (r : tree).
Definition mkN (d : dir) (c : color) (t1 : tree) (a : nat) (t2 : tree) : tree :=
  match d with L => N c t1 a t2 | R => N c t2 a t1 end.
Definition ptr (t : tree) : option nat := match t with E => None | N _ _ a _ => Some a end.
Fixpoint ino (t : tree) : list nat :=
  match t with E => [] | N _ l a r => ino l ++ a :: ino r end.
Fixpoint sz (t : tree) : nat := match t with E => 0 | N _ l _ r => sz l + sz r + 1 end.
(** multiplicity of an address *)
Fixpoint tm (t : tree) (b : nat) : nat :=
  match t with E => 0 | N _ l a r => tm l b + (if a =? b then 1 else 0) + tm r b end.

Record frame := Fr { fd : dir; fc : color; fa : nat; fs : tree }.
Definition ctx := list frame.
Definition plug1 (t : tree) (f : frame) : tree := mkN (fd f) (fc f) t (fa f) (fs f).
Fixpoint plug (t : tree) (C : ctx) : tree :=
  match C with [] => t | f :: C' => plug (plug1 t f) C' end.
Definition up (C : ctx) : option nat := match C with [] => None | f :: _ => Some (fa f) end.
Fixpoint cm (C : ctx) (b : nat) : nat :=
  match C with [] => 0 | f :: C' => (if fa f =? b then 1 else 0) + tm (fs f) b + cm C' b end.
(** the addresses before and after the hole, in order *)
Fixpoint cpre (C : ctx) : list nat :=
  match C with
  | [] => []
  | Fr L _ _ _ :: C' => cpre C'
  | Fr R _ a s :: C' => cpre C' ++ ino s ++ [a]
  end.
Fixpoint cpost (C : ctx) : list nat :=
  match C with
  | [] => []
  | Fr L _ a s :: C' => a :: ino s ++ cpost C'
  | Fr R _ _ _ :: C' => cpost C'
  end.

Lemma ino_plug t C : ino (plug t C) = cpre C ++ ino t ++ cpost C.
Proof.
  revert t; induction C as [|[d c a s] C IH]; intros t; simpl.
  - now rewrite app_nil_r.
  - rewrite IH. unfold plug1; simpl. destruct d; simpl; rewrite <- ?app_assoc; reflexivity.
Qed.

Lemma sz_ino t : sz t = length (ino t).
Proof. induction t as [|c l IHl a r IHr]; simpl; auto. rewrite app_length; simpl. lia. Qed.

Lemma tm_mkN d c t1 a t2 b : tm (mkN d c t1 a t2) b = tm t1 b + (if a =? b then 1 else 0) + tm t2 b.
Proof. destruct d; simpl; lia. Qed.
Lemma sz_mkN d c t1 a t2 : sz (mkN d c t1 a t2) = sz t1 + sz t2 + 1.
Proof. destruct d; simpl; lia. Qed.
Lemma ptr_mkN d c t1 a t2 : ptr (mkN d c t1 a t2) = Some a.
Proof. destruct d; reflexivity. Qed.
Lemma mkN_inv d c l a r : exists t1 t2, N c l a r = mkN d c t1 a t2 /\ (d = L -> t1 = l /\ t2 = r) /\ (d = R -> t1 = r /\ t2 = l).
Proof. destruct d; [exists l, r|exists r, l]; repeat split; congruence. Qed.

Lemma tm_plug t C b : tm (plug t C) b = tm t b + cm C b.
Proof.
  revert t; induction C as [|f C IH]; intros t; simpl; [lia|].
  rewrite IH. unfold plug1. rewrite tm_mkN. lia.
Qed.

Lemma tm_In t b : 1 <= tm t b <-> In b (ino t).
Proof.
  induction t as [|c l IHl a r IHr]; simpl; [split; [lia|tauto]|].
  rewrite in_app_iff; simpl. rewrite <- IHl, <- IHr. destruct (Nat.eqb_spec a b); split; intros; try lia; auto.
Qed.

Lemma tm_count t b : tm t b = count_occ Nat.eq_dec (ino t) b.
Proof.
  induction t as [|c l IHl a r IHr]; simpl; auto.
  rewrite count_occ_app. simpl. destruct (Nat.eq_dec a b), (Nat.eqb_spec a b); try lia.
Qed.

Lemma NoDup_tm t : NoDup (ino t) <-> forall b, tm t b <= 1.
Proof.
  rewrite (NoDup_count_occ Nat.eq_dec). split; intros H b; [rewrite tm_count|rewrite <- tm_count]; apply H.
Qed.

Lemma sz_le_fresh t n : (forall b, tm t b <= 1) -> (forall b, 1 <= tm t b -> b < n) -> sz t <= n.
Proof.
  intros H1 H2. rewrite sz_ino. rewrite <- (seq_length n 0). apply NoDup_incl_length.
  - now apply NoDup_tm.
  - intros b Hb. apply in_seq. apply tm_In in Hb. specialize (H2 b Hb). lia.
Qed.

Lemma depth_plug t C : sz t + length C <= sz (plug t C).
Proof.
  revert t; induction C as [|f C IH]; intros t; simpl; [lia|].
  specialize (IH (plug1 t f)). unfold plug1 in *. rewrite sz_mkN in IH. lia.
Qed.

Section Tree.
Context {T : Type}.
Implicit Types (s : st T).

Definition child (d : dir) s (a : nat) : option nat := match d with L => lft s a | R => rgt s a end.
Definition setc (d : dir) (a : nat) (v : option nat) s : st T :=
  match d with L => set_lft a v s | R => set_rgt a v s end.

Fixpoint tst s (t : tree) (p : option nat) : Prop :=
  match t with
  | E => True
  | N c l a r => alive s a = true /\ par s a = p /\ lft s a = ptr l /\ rgt s a = ptr r /\ col s a = c /\
                 tst s l (Some a) /\ tst s r (Some a)
  end.

Fixpoint cst s (C : ctx) (h : option nat) : Prop :=
  match C with
  | [] => root s = h
  | Fr d c a sb :: C' =>
      alive s a = true /\ par s a = up C' /\ child d s a = h /\ child (opp d) s a = ptr sb /\ col s a = c /\
      tst s sb (Some a) /\ cst s C' (Some a)
  end.

Lemma tst_mkN s d c t1 a t2 p :
  tst s (mkN d c t1 a t2) p <->
  alive s a = true /\ par s a = p /\ child d s a = ptr t1 /\ child (opp d) s a = ptr t2 /\ col s a = c /\
  tst s t1 (Some a) /\ tst s t2 (Some a).
Proof. destruct d; simpl; tauto. Qed.

Lemma plug_st s t C :
  tst s (plug t C) None /\ root s = ptr (plug t C) <-> tst s t (up C) /\ cst s C (ptr t).
Proof.
  revert t; induction C as [|[d c a sb] C IH]; intros t; simpl.
  - tauto.
  - rewrite IH. unfold plug1; simpl. rewrite tst_mkN, ptr_mkN. simpl. tauto.
Qed.

Fixpoint tct s (t : tree) : Prop :=
  match t with
  | E => True
  | N _ l a r => cnt s a = sz l + sz r /\ tct s l /\ tct s r
  end.
Fixpoint cct s (C : ctx) (n : nat) : Prop :=
  match C with
  | [] => True
  | f :: C' => cnt s (fa f) = n + sz (fs f) /\ tct s (fs f) /\ cct s C' (n + sz (fs f) + 1)
  end.

Lemma tct_mkN s d c t1 a t2 : tct s (mkN d c t1 a t2) <-> cnt s a = sz t1 + sz t2 /\ tct s t1 /\ tct s t2.
Proof. destruct d; simpl; intuition lia. Qed.

Lemma plug_ct s t C : tct s (plug t C) <-> tct s t /\ cct s C (sz t).
Proof.
  revert t; induction C as [|f C IH]; intros t; simpl; [tauto|].
  rewrite IH. unfold plug1. rewrite tct_mkN, sz_mkN. tauto.
Qed.

(** Everything the tree predicates look at, at one address. *)
Definition eq_at s s' (a : nat) : Prop :=
  alive s' a = alive s a /\ par s' a = par s a /\ lft s' a = lft s a /\ rgt s' a = rgt s a /\ col s' a = col s a.

Lemma tst_frame s s' t p : (forall a, 1 <= tm t a -> eq_at s s' a) -> tst s t p -> tst s' t p.
Proof.
  revert p; induction t as [|c l IHl a r IHr]; intros p H; simpl; auto.
  intros (H1 & H2 & H3 & H4 & H5 & H6 & H7).
  destruct (H a) as (E1 & E2 & E3 & E4 & E5).
  { simpl. rewrite Nat.eqb_refl. lia. }
  repeat split; try congruence.
  - apply IHl; auto. intros b Hb. apply H. simpl. lia.
  - apply IHr; auto. intros b Hb. apply H. simpl. lia.
Qed.

Lemma tct_frame s s' t : (forall a, 1 <= tm t a -> cnt s' a = cnt s a) -> tct s t -> tct s' t.
Proof.
  induction t as [|c l IHl a r IHr]; intros H; simpl; auto. intros (H1 & H2 & H3).
  repeat split.
  - rewrite H; auto. simpl. rewrite Nat.eqb_refl. lia.
  - apply IHl; auto. intros b Hb. apply H. simpl. lia.
  - apply IHr; auto. intros b Hb. apply H. simpl. lia.
Qed.

Lemma cst_frame s s' C h :
  (forall a, 1 <= cm C a -> eq_at s s' a) -> root s' = root s -> cst s C h -> cst s' C h.
Proof.
  revert h; induction C as [|[d c a sb] C IH]; intros h H Hr; simpl; [congruence|].
  intros (H1 & H2 & H3 & H4 & H5 & H6 & H7).
  destruct (H a) as (E1 & E2 & E3 & E4 & E5).
  { simpl. rewrite Nat.eqb_refl. lia. }
  repeat split; try congruence.
  - destruct d; simpl in *; congruence.
  - destruct d; simpl in *; congruence.
  - eapply tst_frame; eauto. intros b Hb. apply H. simpl. lia.
  - apply IH; auto. intros b Hb. apply H. simpl. lia.
Qed.

Lemma cct_frame s s' C n : (forall a, 1 <= cm C a -> cnt s' a = cnt s a) -> cct s C n -> cct s' C n.
Proof.
  revert n; induction C as [|[d c a sb] C IH]; intros n H; simpl; auto. intros (H1 & H2 & H3).
  repeat split.
  - rewrite H; auto. simpl. rewrite Nat.eqb_refl. lia.
  - eapply tct_frame; [|exact H2]. intros b Hb. apply H. simpl. lia.
  - apply IH; auto. intros b Hb. apply H. simpl. lia.
Qed.

(** The parts of the state that tree manipulation does not touch. *)
Definition same s s' : Prop :=
  val s' = val s /\ nxt s' = nxt s /\ prv s' = prv s /\ fresh s' = fresh s.
Lemma same_refl s : same s s. Proof. repeat split. Qed.
Lemma same_trans s1 s2 s3 : same s1 s2 -> same s2 s3 -> same s1 s3.
Proof. unfold same; intuition congruence. Qed.

(** Nothing but counts changed, and only on [A]. *)
Definition cnt_only s s' : Prop :=
  same s s' /\ root s' = root s /\ par s' = par s /\ lft s' = lft s /\ rgt s' = rgt s /\ col s' = col s.

Lemma cnt_only_eq_at s s' a : cnt_only s s' -> eq_at s s' a.
Proof.
  intros ((Hv & _) & _ & Hp & Hl & Hr & Hc). unfold eq_at, alive. rewrite Hv, Hp, Hl, Hr, Hc. auto.
Qed.
Lemma cnt_only_refl s : cnt_only s s. Proof. repeat split. Qed.
Lemma cnt_only_trans s1 s2 s3 : cnt_only s1 s2 -> cnt_only s2 s3 -> cnt_only s1 s3.
Proof. unfold cnt_only, same; intuition congruence. Qed.

(** Execution of single reads and writes. *)
Lemma bind_rd {A B} s (f : st T -> nat -> A) a (k : A -> M B) :
  alive s a = true -> bind (rd f (Some a)) k s = k (f s a) s.
Proof. intros H. unfold bind, rd. now rewrite H. Qed.
Lemma bind_wr {A B} s (g : nat -> A -> st T -> st T) a v (k : unit -> M B) :
  alive s a = true -> bind (wr g (Some a) v) k s = k tt (g a v s).
Proof. intros H. unfold bind, wr. now rewrite H. Qed.
Lemma run_wr {A} s (g : nat -> A -> st T -> st T) a v :
  alive s a = true -> wr g (Some a) v s = Ok (g a v s, tt).
Proof. intros H. unfold wr. now rewrite H. Qed.
Lemma run_rd {A} s (f : st T -> nat -> A) a :
  alive s a = true -> rd f (Some a) s = Ok (s, f s a).
Proof. intros H. unfold rd. now rewrite H. Qed.
Lemma bind_ret {A B} s (x : A) (k : A -> M B) : bind (ret x) k s = k x s.
Proof. reflexivity. Qed.
Lemma bind_assoc {A B D} (m : M A) (f : A -> M B) (g : B -> M D) s :
  bind (bind m f) g s = bind m (fun x => bind (f x) g) s.
Proof. unfold bind. destruct (m s) as [[s1 x]| |]; reflexivity. Qed.
Lemma bind_ok {A B} s (m : M A) (k : A -> M B) s1 x : m s = Ok (s1, x) -> bind m k s = k x s1.
Proof. intros H. unfold bind. now rewrite H. Qed.
Lemma bind_if {A B} (b : bool) (m1 m2 : M A) (k : A -> M B) s :
  bind (if b then m1 else m2) k s = if b then bind m1 k s else bind m2 k s.
Proof. now destruct b. Qed.

(** What UpdateCount adds up for a child pointer [q] of [a]. *)
Definition cok s (a : nat) (q : option nat) (n : nat) : Prop :=
  match q with None => n = 0 | Some b => alive s b = true /\ b <> a /\ n = cnt s b + 1 end.

Lemma update_count_raw f s a p nl nr :
  alive s a = true -> par s a = p -> cok s a (lft s a) nl -> cok s a (rgt s a) nr ->
  exists s1, cnt_only s s1 /\ cnt s1 a = nl + nr /\ (forall b, b <> a -> cnt s1 b = cnt s b) /\
    update_count_f (S f) (Some a) s =
      if negb (nl + nr =? cnt s a) && negb (is_null p) then update_count_f f p s1 else Ok (s1, tt).
Proof.
  intros Ha Hp Hl Hr.
  set (sA := set_cnt a 0 s).
  assert (H1 : forall B (k : unit -> @M T B), exists s2, cnt_only s s2 /\ cnt s2 a = nl /\
            (forall b, b <> a -> cnt s2 b = cnt s b) /\
            bind (l0 <- rd lft (Some a) ;; if is_null l0 then ret tt else c0 <- rd cnt l0 ;; wr set_cnt (Some a) (c0 + 1)) k sA
            = k tt s2).
  { intros B k. rewrite bind_assoc, bind_rd by exact Ha.
    change (lft sA a) with (lft s a). destruct (lft s a) as [la|]; cbn [is_null cok] in *.
    - destruct Hl as (Hla & Hne & ->). rewrite bind_assoc, bind_rd by exact Hla. rewrite bind_wr by exact Ha.
      eexists. split; [|split; [|split; [|reflexivity]]].
      + repeat split.
      + cbn [cnt set_cnt sA]. rewrite upd_eq. rewrite upd_neq by exact Hne. reflexivity.
      + intros b Hb. cbn [cnt set_cnt sA]. now rewrite !upd_neq.
    - subst nl. exists sA. repeat split; auto; [apply upd_eq|intros b Hb; now apply upd_neq]. }
  assert (H2 : forall s2 B (k : unit -> @M T B), cnt_only s s2 -> cnt s2 a = nl -> (forall b, b <> a -> cnt s2 b = cnt s b) ->
            exists s3, cnt_only s s3 /\ cnt s3 a = nl + nr /\ (forall b, b <> a -> cnt s3 b = cnt s b) /\
            bind (r0 <- rd rgt (Some a) ;; if is_null r0 then ret tt else
                    c0 <- rd cnt r0 ;; me <- rd cnt (Some a) ;; wr set_cnt (Some a) (me + (c0 + 1))) k s2
            = k tt s3).
  { intros s2 B k Ho Hca Hcb. pose proof Ho as ((Hv & Hn & Hpv & Hf) & Hrt & Hpr & Hlf & Hrg & Hcl).
    assert (Ha2 : alive s2 a = true) by (unfold alive; rewrite Hv; exact Ha).
    rewrite bind_assoc, bind_rd by exact Ha2. rewrite Hrg.
    destruct (rgt s a) as [ra|]; cbn [is_null cok] in *.
    - destruct Hr as (Hra & Hne & ->).
      assert (Hra2 : alive s2 ra = true) by (unfold alive; rewrite Hv; exact Hra).
      rewrite bind_assoc, bind_rd by exact Hra2. rewrite bind_assoc, bind_rd by exact Ha2.
      rewrite bind_wr by exact Ha2.
      eexists. split; [|split; [|split; [|reflexivity]]].
      + eapply cnt_only_trans; [exact Ho|]. repeat split.
      + cbn [cnt set_cnt]. rewrite upd_eq, Hca. rewrite Hcb by exact Hne. reflexivity.
      + intros b Hb. cbn [cnt set_cnt]. rewrite upd_neq by auto. now apply Hcb.
    - subst nr. exists s2. repeat split; auto; try apply Ho. lia. }
  destruct (H1 unit (fun _ => r0 <- rd rgt (Some a) ;;
       (if is_null r0 then ret tt else c0 <- rd cnt r0 ;; me <- rd cnt (Some a) ;; wr set_cnt (Some a) (me + (c0 + 1))) ;;;
      new_count <- rd cnt (Some a) ;; pp <- rd par (Some a) ;;
      if negb (new_count =? cnt s a) && negb (is_null pp) then update_count_f f pp else ret tt))
    as (s2 & O2 & A2 & B2 & E2).
  destruct (H2 s2 unit (fun _ => new_count <- rd cnt (Some a) ;; pp <- rd par (Some a) ;;
      if negb (new_count =? cnt s a) && negb (is_null pp) then update_count_f f pp else ret tt) O2 A2 B2)
    as (s3 & O3 & A3 & B3 & E3).
  exists s3. split; [exact O3|]. split; [exact A3|]. split; [exact B3|].
  cbn [update_count_f]. rewrite bind_rd by exact Ha. rewrite bind_wr by exact Ha. fold sA.
  rewrite bind_assoc in E2. rewrite bind_assoc in E3. rewrite E2, E3.
  pose proof O3 as ((Hv & _) & _ & Hpr & _).
  assert (Ha3 : alive s3 a = true) by (unfold alive; rewrite Hv; exact Ha).
  rewrite bind_rd by exact Ha3. rewrite bind_rd by exact Ha3. rewrite A3, Hpr, Hp.
  destruct (negb (nl + nr =? cnt s a) && negb (is_null p)); reflexivity.
Qed.

Lemma cok_tree s t a p : tst s t p -> tct s t -> tm t a = 0 -> cok s a (ptr t) (sz t).
Proof.
  intros H1 H2 H3. destruct t as [|c l b r]; simpl; auto. destruct H1 as (Hb & _), H2 as (Hc & _). split; [auto|]. split; [|lia].
  intros ->. simpl in H3. rewrite Nat.eqb_refl in H3. lia.
Qed.

(** One activation of UpdateCount at a node whose children's counts are right. *)
Lemma update_count_step f s c l a r p :
  tst s (N c l a r) p -> tct s l -> tct s r -> tm l a = 0 -> tm r a = 0 ->
  exists s1, cnt_only s s1 /\ cnt s1 a = sz l + sz r /\ (forall b, b <> a -> cnt s1 b = cnt s b) /\
    update_count_f (S f) (Some a) s =
      if negb (sz l + sz r =? cnt s a) && negb (is_null p) then update_count_f f p s1 else Ok (s1, tt).
Proof.
  intros (Ha & Hp & Hl & Hr & Hc & Tl & Tr) Cl Cr Nl Nr. apply update_count_raw; auto.
  - rewrite Hl. eapply cok_tree; eauto.
  - rewrite Hr. eapply cok_tree; eauto.
Qed.

(** UpdateCount where the counts are already right changes nothing. *)
Definition ceq s s' : Prop := cnt_only s s' /\ forall b, cnt s' b = cnt s b.
Lemma ceq_refl s : ceq s s. Proof. split; [apply cnt_only_refl|auto]. Qed.
Lemma update_count_noop s a nl nr :
  alive s a = true -> cok s a (lft s a) nl -> cok s a (rgt s a) nr -> cnt s a = nl + nr ->
  exists s', update_count (Some a) s = Ok (s', tt) /\ ceq s s'.
Proof.
  intros Ha Hl Hr Hc. destruct (update_count_raw (fresh s) s a (par s a) nl nr) as (s1 & O & C1 & C2 & E1); auto.
  exists s1. split.
  - unfold update_count, fuelled. rewrite E1, Hc, Nat.eqb_refl. reflexivity.
  - split; auto. intros b. destruct (Nat.eq_dec b a) as [->|Hb]; [congruence|auto].
Qed.

Lemma tm_child_zero l a r c : (forall b, tm (N c l a r) b <= 1) -> tm l a = 0 /\ tm r a = 0.
Proof. intros H. specialize (H a). simpl in H. rewrite Nat.eqb_refl in H. lia. Qed.

(** UpdateCount at the bottom of a context brings the whole spine up to date. *)
Lemma update_count_ctx C : forall f s t n,
  length C < f -> C <> [] ->
  tst s t (up C) -> cst s C (ptr t) -> (forall b, tm t b + cm C b <= 1) ->
  tct s t -> cct s C n ->
  exists s', update_count_f f (up C) s = Ok (s', tt) /\ cnt_only s s' /\ cct s' C (sz t) /\ tct s' t /\
    (forall b, cm C b = 0 -> cnt s' b = cnt s b).
Proof.
  induction C as [|[d c a sb] C IH]; intros f s t n Hf Hne Ht Hc Hnd Htc Hcc; [congruence|]. clear Hne.
  destruct f as [|f]; [simpl in Hf; lia|].
  destruct Hcc as (Hn & Hsb & Hcc).
  assert (Ht' : tst s (mkN d c t a sb) (up C)) by (apply tst_mkN; simpl in Hc; simpl in Ht; tauto).
  assert (Hnd' : forall b, tm (mkN d c t a sb) b + cm C b <= 1).
  { intros b. specialize (Hnd b). simpl in Hnd. rewrite tm_mkN. lia. }
  assert (Hstep : exists s1, cnt_only s s1 /\ cnt s1 a = sz t + sz sb /\ (forall b, b <> a -> cnt s1 b = cnt s b) /\
    update_count_f (S f) (Some a) s =
      if negb (sz t + sz sb =? cnt s a) && negb (is_null (up C)) then update_count_f f (up C) s1 else Ok (s1, tt)).
  { pose proof (Hnd a) as Hnda. simpl in Hnda. rewrite Nat.eqb_refl in Hnda.
    destruct d; simpl in Ht'.
    - apply (update_count_step f s c t a sb (up C)); auto; lia.
    - destruct (update_count_step f s c sb a t (up C)) as (s1 & A1 & A2 & A3 & A4); auto; try lia.
      exists s1. replace (sz t + sz sb) with (sz sb + sz t) by lia. auto. }
  destruct Hstep as (s1 & O1 & Hca & Hcb & Hrun). simpl up. rewrite Hrun. clear Hrun.
  assert (Hnda := Hnd a). simpl in Hnda. rewrite Nat.eqb_refl in Hnda.
  assert (Hsb1 : tct s1 sb).
  { eapply tct_frame; [|exact Hsb]. intros b Hb. apply Hcb. intros ->. simpl in Hb. lia. }
  assert (Ht1 : tct s1 t).
  { eapply tct_frame; [|exact Htc]. intros b Hb. apply Hcb. intros ->. lia. }
  assert (Hcc1 : cct s1 C (n + sz sb + 1)).
  { eapply cct_frame; [|exact Hcc]. intros b Hb. apply Hcb. intros ->. lia. }
  destruct (negb (sz t + sz sb =? cnt s a)) eqn:Q; cbn [andb].
  2:{ (* the count did not change, so the hole has the size the context expects *)
      assert (sz t = n) by (simpl in Hn; lia). subst n.
      exists s1. repeat split; auto; try apply O1.
      intros b Hb. simpl in Hb. apply Hcb. intros ->. rewrite Nat.eqb_refl in Hb. lia. }
  destruct C as [|[d2 c2 a2 sb2] C].
  - simpl. exists s1. repeat split; auto; try apply O1.
    intros b Hb. simpl in Hb. apply Hcb. intros ->. rewrite Nat.eqb_refl in Hb. lia.
  - cbn [is_null up negb fa].
    destruct (IH f s1 (mkN d c t a sb) (n + sz sb + 1)) as (s' & E & O' & Cc & Tc & Fr'); auto.
    + simpl in *. lia.
    + discriminate.
    + eapply tst_frame; [|exact Ht']. intros b _. now apply cnt_only_eq_at.
    + rewrite ptr_mkN. eapply cst_frame; [| |apply Hc].
      * intros b _. now apply cnt_only_eq_at.
      * apply O1.
    + apply tct_mkN. auto.
    + exists s'. split; [exact E|]. rewrite sz_mkN in Cc.
      assert (Hfr : forall b, cm (Fr d2 c2 a2 sb2 :: C) b = 0 -> cnt s' b = cnt s1 b) by exact Fr'.
      assert (Hz : forall b, 1 <= tm (mkN d c t a sb) b -> cnt s' b = cnt s1 b).
      { intros b Hb. apply Hfr. specialize (Hnd' b). lia. }
      assert (Tc' := Tc). apply tct_mkN in Tc' as (Tc1 & Tc2 & Tc3).
      split; [eapply cnt_only_trans; eauto|]. split; [|split; [exact Tc2|]].
      * cbn [cct fa fs]. split; [|split; [exact Tc3|]].
        -- rewrite Hz; auto. rewrite tm_mkN, Nat.eqb_refl. lia.
        -- exact Cc.
      * intros b Hb. cbn [cm fa fs] in Hb. rewrite Hfr by (cbn [cm fa fs]; lia).
        apply Hcb. intros ->. rewrite Nat.eqb_refl in Hb. lia.
Qed.

End Tree.
