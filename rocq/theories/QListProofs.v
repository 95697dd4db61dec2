(** Pointer-level effect of the list operations on chains of links. *)
From Verif Require Import Common QListModel QListSpec.
From Coq Require Import ZifyBool ZifyNat.

Lemma addr_eqb_spec a b : reflect (a = b) (addr_eqb a b).
Proof.
  destruct a as [x|x], b as [y|y]; cbn; try (constructor; congruence);
    destruct (Nat.eqb_spec x y); constructor; congruence.
Qed.
Lemma addr_eqb_refl a : addr_eqb a a = true.
Proof. destruct (addr_eqb_spec a a); congruence. Qed.
Lemma addr_eqb_neq a b : a <> b -> addr_eqb a b = false.
Proof. destruct (addr_eqb_spec a b); congruence. Qed.

Definition fwd (m : mem) (x : addr) : ptr := match m x with Some c => nx c | None => None end.
Definition bwd (m : mem) (x : addr) : ptr := match m x with Some c => pv c | None => None end.
Definition alive (m : mem) (x : addr) : Prop := m x <> None.
Definition link (m : mem) (x y : addr) : Prop := fwd m x = Some y /\ bwd m y = Some x.

(** [m'] is [m] with two updated fields. *)
Definition ifa {A} (x a : addr) (u v : A) : A := if addr_eqb x a then u else v.

Lemma ifa_eq {A} a (u v : A) : ifa a a u v = u.
Proof. unfold ifa. now rewrite addr_eqb_refl. Qed.
Lemma ifa_neq {A} x a (u v : A) : x <> a -> ifa x a u v = v.
Proof. intros. unfold ifa. now rewrite addr_eqb_neq. Qed.

Lemma fwd_alive m x y : fwd m x = Some y -> alive m x.
Proof. unfold fwd, alive. destruct (m x); congruence. Qed.
Lemma bwd_alive m x y : bwd m x = Some y -> alive m x.
Proof. unfold bwd, alive. destruct (m x); congruence. Qed.
Lemma link_alive m x y : link m x y -> alive m x /\ alive m y.
Proof. intros [H1 H2]. split; [eapply fwd_alive|eapply bwd_alive]; eauto. Qed.

Lemma fnext_ok m a : alive m a -> fnext m (Some a) = Ok (fwd m a).
Proof. unfold fnext, load, fwd, alive. destruct (m a); [reflexivity|congruence]. Qed.
Lemma bnext_ok m a : alive m a -> bnext m (Some a) = Ok (bwd m a).
Proof. unfold bnext, load, bwd, alive. destruct (m a); [reflexivity|congruence]. Qed.

Definition same_alive (m m' : mem) := forall x, alive m x -> alive m' x.

Lemma set_fnext_ok m a q : alive m a ->
  exists m', set_fnext m (Some a) q = Ok m' /\ (forall x, fwd m' x = ifa x a q (fwd m x)) /\
    (forall x, bwd m' x = bwd m x) /\ same_alive m m'.
Proof.
  unfold set_fnext, load, alive. intros H. destruct (m a) as [c|] eqn:E; [|congruence]. eexists. split; [reflexivity|].
  unfold fwd, bwd, put, ifa, same_alive, alive. repeat split; intros x; destruct (addr_eqb_spec x a); subst; rewrite ?E; cbn; congruence.
Qed.
Lemma set_bnext_ok m a q : alive m a ->
  exists m', set_bnext m (Some a) q = Ok m' /\ (forall x, fwd m' x = fwd m x) /\
    (forall x, bwd m' x = ifa x a q (bwd m x)) /\ same_alive m m'.
Proof.
  unfold set_bnext, load, alive. intros H. destruct (m a) as [c|] eqn:E; [|congruence]. eexists. split; [reflexivity|].
  unfold fwd, bwd, put, ifa, same_alive, alive. repeat split; intros x; destruct (addr_eqb_spec x a); subst; rewrite ?E; cbn; congruence.
Qed.

(** One step of symbolic execution. *)
Ltac sf m' :=
  match goal with |- context [set_fnext ?m (Some ?a) ?q] =>
    let E := fresh "E" in let F := fresh "F" in let B := fresh "B" in let L := fresh "L" in
    destruct (set_fnext_ok m a q) as (m' & E & F & B & L); [|rewrite E; cbn [rbind]] end.
Ltac sb m' :=
  match goal with |- context [set_bnext ?m (Some ?a) ?q] =>
    let E := fresh "E" in let F := fresh "F" in let B := fresh "B" in let L := fresh "L" in
    destruct (set_bnext_ok m a q) as (m' & E & F & B & L); [|rewrite E; cbn [rbind]] end.

Definition inserted (m m' : mem) (p a q : addr) : Prop :=
  (forall x, fwd m' x = ifa x p (Some a) (ifa x a (Some q) (fwd m x))) /\
  (forall x, bwd m' x = ifa x q (Some a) (ifa x a (Some p) (bwd m x))) /\ same_alive m m'.

Lemma insert_after_ok m p a q : link m p q -> alive m a -> a <> p -> a <> q ->
  exists m', insert_after m p a = Ok m' /\ inserted m m' p a q.
Proof.
  intros Hl Ha Np Nq. destruct (link_alive _ _ _ Hl) as [Ap Aq]. destruct Hl as [L1 L2].
  unfold insert_after, f_insert_after, b_insert_after. rewrite fnext_ok by auto. cbn [rbind]. rewrite L1.
  sf m1; auto. sf m2; [auto|]. rewrite bnext_ok by auto. cbn [rbind].
  sb m3; [auto|]. sb m4; [auto|]. exists m4. split; [reflexivity|]. split; [|split].
  - intros x. rewrite F2, F1, F0, F. reflexivity.
  - intros x. rewrite B2, B1, B0, B, B0, B, L2. reflexivity.
  - intros x Hx. auto 10.
Qed.

Lemma insert_before_ok m p a q : link m p q -> alive m a -> a <> p -> a <> q ->
  exists m', insert_before m q a = Ok m' /\ inserted m m' p a q.
Proof.
  intros Hl Ha Np Nq. destruct (link_alive _ _ _ Hl) as [Ap Aq]. destruct Hl as [L1 L2].
  unfold insert_before, f_insert_after, b_insert_after. rewrite bnext_ok by auto. cbn [rbind]. rewrite L2.
  rewrite fnext_ok by auto. cbn [rbind]. rewrite L1.
  sf m1; auto. sf m2; [auto|]. rewrite bnext_ok by auto. cbn [rbind].
  sb m3; [auto|]. sb m4; [auto|]. exists m4. split; [reflexivity|]. split; [|split].
  - intros x. rewrite F2, F1, F0, F. reflexivity.
  - intros x. rewrite B2, B1, B0, B, B0, B, L2. reflexivity.
  - intros x Hx. auto 10.
Qed.

Definition excluded (m m' : mem) (p a q : addr) : Prop :=
  (forall x, fwd m' x = ifa x a None (ifa x p (Some q) (fwd m x))) /\
  (forall x, bwd m' x = ifa x a None (ifa x q (Some p) (bwd m x))) /\ same_alive m m'.

Lemma included_ok m a : alive m a -> included m a =
  guard (eqb (match fwd m a with None => false | _ => true end) (match bwd m a with None => false | _ => true end))
    (Ok (match fwd m a with None => false | _ => true end)).
Proof. unfold included, load, alive, fwd, bwd. destruct (m a); [reflexivity|congruence]. Qed.

Lemma exclude_ok m p a q : link m p a -> link m a q -> a <> p -> a <> q ->
  exists m', exclude m a = Ok m' /\ excluded m m' p a q.
Proof.
  intros H1 H2 Np Nq. destruct (link_alive _ _ _ H1) as [Ap Aa]. destruct (link_alive _ _ _ H2) as [_ Aq].
  destruct H1 as [P1 P2], H2 as [Q1 Q2].
  unfold exclude. rewrite included_ok by auto. rewrite P2, Q1. cbn [eqb guard rbind].
  rewrite bnext_ok, fnext_ok by auto. cbn [rbind]. rewrite P2, Q1.
  unfold f_remove_after. rewrite (fnext_ok m p) by auto. cbn [rbind]. rewrite P1. rewrite (fnext_ok m a) by auto. cbn [rbind]. rewrite Q1.
  sf m1; [auto|]. sf m2; [auto|]. unfold b_remove_after. rewrite (bnext_ok m2 q) by auto. cbn [rbind].
  rewrite B0, B, Q2. rewrite (bnext_ok m2 a) by auto. cbn [rbind]. rewrite B0, B, P2.
  sb m3; [auto|]. sb m4; [auto|]. exists m4. split; [reflexivity|]. split; [|split].
  - intros x. rewrite F2, F1, F0, F. reflexivity.
  - intros x. rewrite B2, B1, B0, B. reflexivity.
  - intros x Hx. auto 10.
Qed.

(** ** Chains *)
Fixpoint chain (m : mem) (l : list addr) : Prop :=
  match l with
  | x :: (y :: _) as r => link m x y /\ chain m r
  | _ => True
  end.

Lemma chain_cons m x y l : chain m (x :: y :: l) <-> link m x y /\ chain m (y :: l).
Proof. reflexivity. Qed.

Lemma chain_mid m l1 p q l2 : chain m (l1 ++ p :: q :: l2) <-> chain m (l1 ++ [p]) /\ link m p q /\ chain m (q :: l2).
Proof.
  induction l1 as [|x l1 IH]; cbn [app].
  - rewrite chain_cons. cbn. tauto.
  - destruct l1 as [|y l1]; cbn [app] in *.
    + rewrite !chain_cons in *. cbn in *. tauto.
    + rewrite !(chain_cons m x y). rewrite IH. tauto.
Qed.

Lemma chain_frame m m' l : chain m l ->
  (forall x, In x (removelast l) -> fwd m' x = fwd m x) -> (forall x, In x (tl l) -> bwd m' x = bwd m x) -> chain m' l.
Proof.
  induction l as [|x l IH]; intros H F B; [exact I|]. destruct l as [|y l]; [exact I|].
  apply chain_cons in H as [[H1 H2] H3]. apply chain_cons. split.
  - split; [rewrite F; [auto|left; reflexivity]|rewrite B; [auto|left; reflexivity]].
  - apply IH; auto.
    + intros z Hz. apply F. change (removelast (x :: y :: l)) with (x :: removelast (y :: l)). right. exact Hz.
    + intros z Hz. apply B. cbn in *. auto.
Qed.

(** A circular list: its Null, then its elements. *)
Definition circ (m : mem) (N : addr) (s : list addr) : Prop := chain m (N :: s ++ [N]).

Lemma removelast_snoc {A} (l : list A) x : removelast (l ++ [x]) = l.
Proof. rewrite removelast_app by congruence. cbn. apply app_nil_r. Qed.

Lemma circ_frame m m' N s : circ m N s ->
  (forall x, In x (N :: s) -> fwd m' x = fwd m x) -> (forall x, In x (N :: s) -> bwd m' x = bwd m x) -> circ m' N s.
Proof.
  intros H F B. eapply chain_frame; [exact H| |].
  - intros x Hx. apply F. rewrite app_comm_cons, removelast_snoc in Hx. exact Hx.
  - intros x Hx. cbn [tl] in Hx. apply B. apply in_app_or in Hx as [|[|[]]]; cbn; auto.
Qed.

Lemma snoc_of {A} (x : A) l : exists l' y, x :: l = l' ++ [y].
Proof. destruct (exists_last (l := x :: l)) as (l' & y & E); [congruence|eauto]. Qed.
Lemma cons_of {A} (l : list A) x : exists y l', l ++ [x] = y :: l'.
Proof. destruct l; cbn; eauto. Qed.

(** The neighbours of the gap between [s1] and [s2]. *)
Lemma circ_gap m N s1 s2 : circ m N (s1 ++ s2) ->
  exists l1 p q l2, N :: s1 = l1 ++ [p] /\ s2 ++ [N] = q :: l2 /\ chain m (l1 ++ [p]) /\ link m p q /\ chain m (q :: l2).
Proof.
  intros H. destruct (snoc_of N s1) as (l1 & p & E1). destruct (cons_of s2 N) as (q & l2 & E2).
  exists l1, p, q, l2. split; [auto|]. split; [auto|]. unfold circ in H.
  rewrite <- app_assoc, E2, app_comm_cons, E1, <- app_assoc in H. cbn [app] in H. now apply chain_mid in H.
Qed.

Lemma nodup_app {A} (l1 l2 : list A) : NoDup (l1 ++ l2) <-> NoDup l1 /\ NoDup l2 /\ (forall x, In x l1 -> In x l2 -> False).
Proof.
  induction l1 as [|x l1 IH]; cbn.
  - split; [intros H; split; [constructor|]; split; [auto|tauto]|tauto].
  - rewrite !NoDup_cons_iff, IH, in_app_iff. intuition eauto. subst. eauto.
Qed.

(** Where a list with distinct elements is cut in two. *)
Lemma gap_facts (N : addr) s1 s2 l1 p q l2 :
  NoDup (N :: s1 ++ s2) -> N :: s1 = l1 ++ [p] -> s2 ++ [N] = q :: l2 ->
  (forall x, In x l1 -> x <> p) /\ (forall x, In x s1 -> x <> q) /\ (forall x, In x s2 -> x <> p) /\ (forall x, In x l2 -> x <> q) /\ In p (N :: s1 ++ s2) /\ In q (N :: s1 ++ s2) /\ (forall x, In x l1 -> In x (N :: s1 ++ s2)) /\ (forall x, In x l2 -> In x (N :: s1 ++ s2)) /\ removelast (q :: l2) = s2 /\ tl (l1 ++ [p]) = s1.
Proof.
  intros ND E1 E2. apply NoDup_cons_iff in ND as [N1 N2]. apply nodup_app in N2 as (N2 & N3 & N4). rewrite in_app_iff in N1.
  assert (D1 : NoDup (l1 ++ [p])) by (rewrite <- E1; constructor; tauto).
  assert (D2 : NoDup (q :: l2)).
  { rewrite <- E2. apply nodup_app. repeat split; auto; [repeat constructor; auto|]. intros x Hx [<-|[]]. tauto. }
  assert (Ip : In p (N :: s1)) by (rewrite E1; apply in_or_app; cbn; auto).
  assert (Iq : In q (s2 ++ [N])) by (rewrite E2; cbn; auto).
  assert (Il1 : forall x, In x l1 -> In x (N :: s1)) by (intros; rewrite E1; apply in_or_app; auto).
  assert (Il2 : forall x, In x l2 -> In x (s2 ++ [N])) by (intros; rewrite E2; cbn; auto).
  apply nodup_app in D1 as (_ & _ & D1). apply NoDup_cons_iff in D2 as [D2 _].
  split; [intros x Hx ->; apply (D1 p); cbn; auto|].
  split; [intros x Hx ->; apply in_app_or in Iq as [|[|[]]]; [eauto|subst; tauto]|].
  split; [intros x Hx ->; destruct Ip; [subst; tauto|eauto]|].
  split; [intros x Hx ->; auto|].
  assert (K1 : forall x, In x (N :: s1) -> In x (N :: s1 ++ s2)) by (intros x [|]; cbn; rewrite in_app_iff; auto).
  assert (K2 : forall x, In x (s2 ++ [N]) -> In x (N :: s1 ++ s2)) by (intros x Hx; apply in_app_or in Hx as [|[|[]]]; cbn; rewrite in_app_iff; auto).
  split; [auto|]. split; [auto|]. split; [auto|]. split; [auto|].
  split; [rewrite <- E2; apply removelast_snoc|rewrite <- E1; reflexivity].
Qed.

Lemma circ_join m N s1 s2 l1 p q l2 : N :: s1 = l1 ++ [p] -> s2 ++ [N] = q :: l2 ->
  chain m (l1 ++ [p]) -> link m p q -> chain m (q :: l2) -> circ m N (s1 ++ s2).
Proof.
  intros E1 E2 C1 L C2. unfold circ. rewrite <- app_assoc, E2, app_comm_cons, E1, <- app_assoc. cbn [app].
  apply chain_mid. auto.
Qed.

Lemma circ_insert m m' N s1 s2 a l1 p q l2 :
  NoDup (N :: s1 ++ s2) -> ~ In a (N :: s1 ++ s2) -> N :: s1 = l1 ++ [p] -> s2 ++ [N] = q :: l2 ->
  chain m (l1 ++ [p]) -> chain m (q :: l2) -> inserted m m' p a q -> circ m' N (s1 ++ a :: s2).
Proof.
  intros ND Na E1 E2 C1 C2 (F & B & _).
  destruct (gap_facts _ _ _ _ _ _ _ ND E1 E2) as (G1 & G2 & G3 & G4 & G5 & G6 & G7 & G8 & G9 & G10).
  assert (Nap : p <> a) by (intros ->; tauto). assert (Naq : q <> a) by (intros ->; tauto).
  eapply circ_join with (q := a) (l2 := q :: l2); [exact E1|cbn; now rewrite E2| | |].
  - eapply chain_frame; [exact C1| |].
    + rewrite removelast_snoc. intros x Hx. rewrite F, !ifa_neq; auto. intros ->. auto.
    + rewrite G10. intros x Hx. rewrite B, !ifa_neq; auto. intros ->. apply Na. cbn. rewrite in_app_iff. auto.
  - split; [rewrite F, ifa_eq; reflexivity|rewrite B, ifa_neq, ifa_eq; auto].
  - apply chain_cons. split.
    + split; [rewrite F, ifa_neq, ifa_eq; auto|rewrite B, ifa_eq; auto].
    + eapply chain_frame; [exact C2| |].
      * rewrite G9. intros x Hx. rewrite F, !ifa_neq; auto. intros ->. apply Na. cbn. rewrite in_app_iff. auto.
      * cbn [tl]. intros x Hx. rewrite B, !ifa_neq; auto. intros ->. auto.
Qed.

(** The neighbours of an element. *)
Lemma circ_elem m N s1 a s2 : circ m N (s1 ++ a :: s2) ->
  exists l1 p q l2, N :: s1 = l1 ++ [p] /\ s2 ++ [N] = q :: l2 /\ chain m (l1 ++ [p]) /\ link m p a /\ link m a q /\ chain m (q :: l2).
Proof.
  intros H. destruct (circ_gap _ _ _ _ H) as (l1 & p & q0 & l2 & E1 & E2 & C1 & L & C2).
  cbn in E2. injection E2 as <- E2. destruct (cons_of s2 N) as (q & l3 & E3).
  rewrite E3 in E2. subst l2. apply chain_cons in C2 as [L2 C2].
  exists l1, p, q, l3. auto 10.
Qed.

Lemma circ_exclude m m' N s1 s2 a l1 p q l2 :
  NoDup (N :: s1 ++ a :: s2) -> N :: s1 = l1 ++ [p] -> s2 ++ [N] = q :: l2 ->
  chain m (l1 ++ [p]) -> chain m (q :: l2) -> excluded m m' p a q -> circ m' N (s1 ++ s2).
Proof.
  intros ND E1 E2 C1 C2 (F & B & _).
  assert (Na : ~ In a (N :: s1 ++ s2)).
  { apply NoDup_cons_iff in ND as [X1 X2]. apply NoDup_remove in X2 as [X2 X3]. cbn. intros [->|]; [|auto].
    apply X1. rewrite in_app_iff. cbn. auto. }
  assert (ND' : NoDup (N :: s1 ++ s2)).
  { apply NoDup_cons_iff in ND as [X1 X2]. apply NoDup_remove in X2 as [X2 X3]. constructor; auto.
    intros X. apply X1. apply in_app_or in X as [|]; rewrite in_app_iff; cbn; auto. }
  destruct (gap_facts _ _ _ _ _ _ _ ND' E1 E2) as (G1 & G2 & G3 & G4 & G5 & G6 & G7 & G8 & G9 & G10).
  assert (Nap : p <> a) by (intros ->; tauto). assert (Naq : q <> a) by (intros ->; tauto).
  eapply circ_join; [exact E1|exact E2| | |].
  - eapply chain_frame; [exact C1| |].
    + rewrite removelast_snoc. intros x Hx. rewrite F, !ifa_neq; auto. intros ->. auto.
    + rewrite G10. intros x Hx. rewrite B, !ifa_neq; auto. intros ->. apply Na. cbn. rewrite in_app_iff. auto.
  - split; [rewrite F, ifa_neq, ifa_eq; auto|rewrite B, ifa_neq, ifa_eq; auto].
  - eapply chain_frame; [exact C2| |].
    + rewrite G9. intros x Hx. rewrite F, !ifa_neq; auto. intros ->. apply Na. cbn. rewrite in_app_iff. auto.
    + cbn [tl]. intros x Hx. rewrite B, !ifa_neq; auto. intros ->. auto.
Qed.

(** ** Walking *)
Lemma p_is_elem n l : p_is (Some (El n)) (Nl l) = false.
Proof. reflexivity. Qed.
Lemma p_is_null l : p_is (Some (Nl l)) (Nl l) = true.
Proof. apply addr_eqb_refl. Qed.

Lemma walk_fwd m l s : forall x fuel, chain m (x :: map El s ++ [Nl l]) -> length s < fuel ->
  walk fnext fuel m (fwd m x) l = Ok s.
Proof.
  induction s as [|n s IH]; intros x fuel C Hf; (destruct fuel as [|fuel]; [lia|]); cbn [map app] in C; apply chain_cons in C as [[L1 L2] C].
  - rewrite L1. cbn [walk]. now rewrite p_is_null.
  - rewrite L1. cbn [walk]. rewrite p_is_elem. cbn [as_elem rbind].
    assert (A : alive m (El n)) by (eapply bwd_alive; eauto).
    rewrite fnext_ok by auto. cbn [rbind]. rewrite IH; [reflexivity|auto|cbn in Hf; lia].
Qed.

Lemma walk_bwd m l s : forall y fuel, chain m (Nl l :: map El s ++ [y]) -> length s < fuel ->
  walk bnext fuel m (bwd m y) l = Ok (rev s).
Proof.
  induction s as [|n s IH] using rev_ind; intros y fuel C Hf; (destruct fuel as [|fuel]; [lia|]).
  - cbn in C. destruct C as [[L1 L2] _]. rewrite L2. cbn [walk]. now rewrite p_is_null.
  - rewrite map_app, <- app_assoc in C. cbn [map app] in C. rewrite app_comm_cons in C. apply chain_mid in C as (C1 & [L1 L2] & _).
    rewrite L2. cbn [walk]. rewrite p_is_elem. cbn [as_elem rbind].
    assert (A : alive m (El n)) by (eapply fwd_alive; eauto).
    rewrite bnext_ok by auto. cbn [rbind]. rewrite IH; [|auto|rewrite app_length in Hf; cbn in Hf; lia].
    rewrite rev_app_distr. reflexivity.
Qed.

Lemma circ_null_alive m N s : circ m N s -> alive m N.
Proof. unfold circ. destruct s; cbn [app]; intros H; apply chain_cons in H as [H _]; now apply link_alive in H. Qed.
Lemma circ_elem_alive m N s x : circ m N s -> In x s -> alive m x.
Proof.
  intros H Hx. apply in_split in Hx as (s1 & s2 & ->). destruct (circ_elem _ _ _ _ _ H) as (? & ? & ? & ? & _ & _ & _ & L & _).
  now apply link_alive in L.
Qed.

Lemma iterate_ok m l s fuel : circ m (Nl l) (map El s) -> length s < fuel -> iterate fuel m l = Ok s.
Proof.
  intros C Hf. unfold iterate. rewrite fnext_ok by (eapply circ_null_alive; eauto). cbn [rbind]. apply walk_fwd; auto.
Qed.
Lemma riterate_ok m l s fuel : circ m (Nl l) (map El s) -> length s < fuel -> riterate fuel m l = Ok (rev s).
Proof.
  intros C Hf. unfold riterate. rewrite bnext_ok by (eapply circ_null_alive; eauto). cbn [rbind]. apply walk_bwd; auto.
Qed.

Lemma circ_first m N s : circ m N s -> fwd m N = Some (hd N s).
Proof. unfold circ. destruct s; cbn [app hd]; intros H; apply chain_cons in H as [[H _] _]; auto. Qed.
Lemma circ_last m N s : circ m N s -> bwd m N = Some (last s N).
Proof.
  unfold circ. destruct s as [|x s _] using rev_ind; cbn [app].
  - intros [[_ H] _]. exact H.
  - rewrite <- app_assoc. intros H. change (chain m ((N :: s) ++ x :: N :: [])) in H. apply chain_mid in H as (_ & [_ H] & _). rewrite last_last. exact H.
Qed.

(** ** Splicing: [s] (first [f], last [z]) goes into the gap [p]|[q]; [S] is emptied. *)
Definition spliced (m m' : mem) (p f z q S : addr) : Prop :=
  (forall x, fwd m' x = ifa x S (Some S) (ifa x z (Some q) (ifa x p (Some f) (fwd m x)))) /\
  (forall x, bwd m' x = ifa x S (Some S) (ifa x f (Some p) (ifa x q (Some z) (bwd m x)))) /\ same_alive m m'.

Lemma circ_splice m m' N S t1 t2 s f z l1 p q l2 :
  NoDup (N :: t1 ++ t2) -> NoDup (S :: s) -> (forall x, In x (N :: t1 ++ t2) -> In x (S :: s) -> False) ->
  N :: t1 = l1 ++ [p] -> t2 ++ [N] = q :: l2 -> chain m (l1 ++ [p]) -> chain m (q :: l2) ->
  circ m S s -> s <> [] -> f = hd S s -> z = last s S -> spliced m m' p f z q S ->
  circ m' N (t1 ++ s ++ t2) /\ circ m' S [].
Proof.
  intros ND NDs Dj E1 E2 C1 C2 CS Hs Hf Hz (F & B & _).
  destruct (gap_facts _ _ _ _ _ _ _ ND E1 E2) as (G1 & G2 & G3 & G4 & G5 & G6 & G7 & G8 & G9 & G10).
  assert (Is : forall x, In x s -> In x (S :: s)) by (cbn; auto).
  assert (Izs : In z s). { rewrite Hz. destruct s as [|y s _] using rev_ind; [congruence|]. rewrite last_last, in_app_iff. cbn; auto. }
  assert (Ifs : In f s). { rewrite Hf. destruct s; [congruence|]. cbn; auto. }
  assert (IS : In S (S :: s)) by (cbn; auto).
  assert (NS : ~ In S s) by (apply NoDup_cons_iff in NDs; tauto).
  assert (D : forall x y, In x (N :: t1 ++ t2) -> In y (S :: s) -> x <> y) by (intros x y Hx Hy ->; eauto).
  assert (It1 : forall x, In x t1 -> In x (N :: t1 ++ t2)) by (intros; cbn; rewrite in_app_iff; auto).
  assert (It2 : forall x, In x t2 -> In x (N :: t1 ++ t2)) by (intros; cbn; rewrite in_app_iff; auto).
  assert (Cs : chain m s).
  { unfold circ in CS. destruct s as [|y s]; [congruence|]. cbn [app] in CS. apply chain_cons in CS as [_ CS].
    destruct (exists_last (l := y :: s)) as (u & v & Eu); [congruence|]. rewrite app_comm_cons, Eu, <- app_assoc in CS. cbn [app] in CS.
    rewrite Eu. now apply chain_mid in CS. }
  assert (Nzf : forall x, In x (removelast s) -> x <> z).
  { intros x Hx ->. rewrite Hz in Hx. apply NoDup_cons_iff in NDs as [_ NDs].
    destruct s as [|y s _] using rev_ind; [congruence|]. rewrite removelast_snoc, last_last in Hx.
    apply nodup_app in NDs as (_ & _ & X). apply (X y); cbn; auto. }
  assert (Nft : forall x, In x (tl s) -> x <> f).
  { intros x Hx ->. rewrite Hf in Hx. apply NoDup_cons_iff in NDs as [_ NDs]. destruct s as [|y s]; [congruence|].
    apply NoDup_cons_iff in NDs. cbn in Hx. tauto. }
  assert (Irl : forall x, In x (removelast s) -> In x s).
  { intros x Hx. destruct s as [|y s _] using rev_ind; [auto|]. rewrite removelast_snoc in Hx. rewrite in_app_iff; auto. }
  assert (Itl : forall x, In x (tl s) -> In x s) by (intros x Hx; destruct s; cbn in *; auto).
  split.
  - destruct s as [|y s0]; [congruence|]. cbn [hd] in Hf. subst y.
    destruct (exists_last (l := f :: s0)) as (u & v & Eu); [congruence|]. assert (v = z) as -> by (rewrite Hz, Eu, last_last; auto).
    eapply circ_join with (q := f) (l2 := s0 ++ q :: l2); [exact E1|cbn; now rewrite <- app_assoc, E2| | |].
    + eapply chain_frame; [exact C1| |].
      * rewrite removelast_snoc. intros x Hx. rewrite F, !ifa_neq; auto.
      * rewrite G10. intros x Hx. rewrite B, !ifa_neq; auto.
    + split; [rewrite F, 2!ifa_neq, ifa_eq; auto|rewrite B, ifa_neq, ifa_eq; auto]. intros ->; auto.
    + rewrite app_comm_cons, Eu, <- app_assoc. cbn [app]. apply chain_mid. rewrite <- Eu. repeat split.
      * eapply chain_frame; [exact Cs| |].
        -- intros x Hx. rewrite F, !ifa_neq; auto.
           ++ intros ->. eapply D; [exact G5| |reflexivity]. auto.
           ++ intros ->. apply NS. auto.
        -- intros x Hx. rewrite B, !ifa_neq; auto.
           ++ intros ->. eapply D; [exact G6| |reflexivity]. auto.
           ++ intros ->. apply NS. auto.
      * rewrite F, ifa_neq, ifa_eq; auto. intros ->; auto.
      * rewrite B, 2!ifa_neq, ifa_eq; auto.
      * eapply chain_frame; [exact C2| |].
        -- rewrite G9. intros x Hx. rewrite F, !ifa_neq; auto.
        -- cbn [tl]. intros x Hx. rewrite B, !ifa_neq; auto.
  - cbn. split; [|exact I]. split; [rewrite F, ifa_eq; auto|rewrite B, ifa_eq; auto].
Qed.

Lemma clear_ok m l : alive m (Nl l) ->
  exists m', clear m l = Ok m' /\ (forall x, fwd m' x = ifa x (Nl l) (Some (Nl l)) (fwd m x)) /\
    (forall x, bwd m' x = ifa x (Nl l) (Some (Nl l)) (bwd m x)) /\ same_alive m m'.
Proof.
  intros A. unfold clear. sf m1; [auto|]. sb m2; [auto|]. exists m2. split; [reflexivity|]. split; [|split].
  - intros x. now rewrite F0, F.
  - intros x. now rewrite B0, B.
  - intros x Hx. auto 10.
Qed.

Lemma empty_ok m l s : circ m (Nl l) (map El s) -> empty m l = Ok (length s =? 0).
Proof.
  intros C. unfold empty. rewrite fnext_ok by (eapply circ_null_alive; eauto). cbn [rbind]. rewrite (circ_first _ _ _ C).
  destruct s; cbn; [now rewrite Nat.eqb_refl|reflexivity].
Qed.
Lemma empty_or_one_ok m l s : circ m (Nl l) (map El s) -> empty_or_contains_one m l = Ok (length s <=? 1).
Proof.
  intros C. unfold empty_or_contains_one. rewrite fnext_ok by (eapply circ_null_alive; eauto). cbn [rbind]. rewrite (circ_first _ _ _ C).
  destruct s as [|n s]; cbn [map hd].
  - rewrite fnext_ok by (eapply circ_null_alive; eauto). cbn [rbind]. rewrite (circ_first _ _ _ C). cbn. now rewrite Nat.eqb_refl.
  - unfold circ in C. cbn [map app] in C. apply chain_cons in C as [_ C].
    destruct s as [|n' s]; cbn [map app] in C; apply chain_cons in C as [L C]; pose proof (link_alive _ _ _ L) as [A _];
      rewrite fnext_ok by auto; cbn [rbind]; rewrite (proj1 L); cbn; [now rewrite Nat.eqb_refl|reflexivity].
Qed.
Lemma one_ok m l s : circ m (Nl l) (map El s) -> contains_one m l = Ok (length s =? 1).
Proof.
  intros C. unfold contains_one. rewrite (empty_ok m l s) by auto. cbn [rbind]. destruct s as [|n s]; [reflexivity|]. cbn [length Nat.eqb].
  rewrite (empty_or_one_ok m l (n :: s)) by auto. cbn [length]. f_equal. lia.
Qed.
Lemma front_ok m l n s : circ m (Nl l) (map El (n :: s)) -> front m l = Ok n.
Proof. intros C. unfold front. rewrite fnext_ok by (eapply circ_null_alive; eauto). cbn [rbind]. rewrite (circ_first _ _ _ C). reflexivity. Qed.
Lemma back_ok m l s n : circ m (Nl l) (map El (s ++ [n])) -> back m l = Ok n.
Proof.
  intros C. unfold back. rewrite bnext_ok by (eapply circ_null_alive; eauto). cbn [rbind]. rewrite (circ_last _ _ _ C).
  rewrite map_app. cbn [map]. rewrite last_last. reflexivity.
Qed.

Lemma map_hd s N : s <> [] -> exists n, hd N (map El s) = El n.
Proof. destruct s; [congruence|]. cbn; eauto. Qed.
Lemma map_last s N : s <> [] -> exists n, last (map El s) N = El n.
Proof. destruct s as [|n s _] using rev_ind; [congruence|]. rewrite map_app. cbn [map]. rewrite last_last. eauto. Qed.
Lemma last_alive m N s : circ m N s -> alive m (last s N) /\ alive m (hd N s).
Proof.
  intros C. pose proof (circ_null_alive _ _ _ C). destruct s as [|x s _] using rev_ind; [auto|]. rewrite last_last. split.
  - eapply circ_elem_alive; [exact C|]. rewrite in_app_iff; cbn; auto.
  - destruct s as [|y s]; cbn [app hd]; (eapply circ_elem_alive; [exact C|]); cbn; auto.
Qed.

Lemma ifa_comm {A} x a b (u v w : A) : a <> b -> ifa x a u (ifa x b v w) = ifa x b v (ifa x a u w).
Proof. intros. unfold ifa. destruct (addr_eqb_spec x a), (addr_eqb_spec x b); congruence. Qed.

Lemma splice_front_ok m l src t s : l <> src -> circ m (Nl l) (map El t) -> circ m (Nl src) (map El s) -> s <> [] ->
  (forall n, In n t -> In n s -> False) ->
  exists m', splice_front m l src = Ok m' /\
    spliced m m' (Nl l) (hd (Nl src) (map El s)) (last (map El s) (Nl src)) (hd (Nl l) (map El t)) (Nl src).
Proof.
  intros Hl Ct Cs Hs Hd. unfold splice_front. rewrite (empty_ok m src s) by auto. cbn [rbind].
  destruct (length s =? 0) eqn:E0; [destruct s; [congruence|discriminate]|].
  pose proof (circ_null_alive _ _ _ Ct) as Al. pose proof (circ_null_alive _ _ _ Cs) as As.
  destruct (last_alive _ _ _ Cs) as [Az Af]. destruct (last_alive _ _ _ Ct) as [_ At].
  rewrite !fnext_ok, bnext_ok by auto. cbn [rbind].
  rewrite (circ_first _ _ _ Cs), (circ_last _ _ _ Cs), (circ_first _ _ _ Ct).
  destruct (map_hd s (Nl src) Hs) as [nf Ef]. destruct (map_last s (Nl src) Hs) as [nz Ez]. rewrite Ef, Ez in *.
  sf m1; [auto|]. sf m2; [auto|]. sb m3; [auto|]. sb m4; [auto|].
  destruct (clear_ok m4 src) as (m5 & -> & F5 & B5 & L5); [auto|]. exists m5. split; [reflexivity|]. split; [|split].
  - intros x. rewrite F5, F2, F1, F0, F. reflexivity.
  - intros x. rewrite B5, B2, B1, B0, B. reflexivity.
  - intros x Hx. auto 10.
Qed.

Lemma splice_back_ok m l src t s : l <> src -> circ m (Nl l) (map El t) -> circ m (Nl src) (map El s) -> s <> [] ->
  (forall n, In n t -> In n s -> False) ->
  exists m', splice_back m l src = Ok m' /\
    spliced m m' (last (map El t) (Nl l)) (hd (Nl src) (map El s)) (last (map El s) (Nl src)) (Nl l) (Nl src).
Proof.
  intros Hl Ct Cs Hs Hd. unfold splice_back. rewrite (empty_ok m src s) by auto. cbn [rbind].
  destruct (length s =? 0) eqn:E0; [destruct s; [congruence|discriminate]|].
  pose proof (circ_null_alive _ _ _ Ct) as Al. pose proof (circ_null_alive _ _ _ Cs) as As.
  destruct (last_alive _ _ _ Cs) as [Az Af]. destruct (last_alive _ _ _ Ct) as [At _].
  rewrite !fnext_ok, !bnext_ok by auto. cbn [rbind].
  rewrite (circ_first _ _ _ Cs), (circ_last _ _ _ Cs), (circ_last _ _ _ Ct).
  destruct (map_hd s (Nl src) Hs) as [nf Ef]. destruct (map_last s (Nl src) Hs) as [nz Ez]. rewrite Ef, Ez in *.
  sf m1; [auto|]. sf m2; [auto|]. rewrite bnext_ok by auto. cbn [rbind]. rewrite B0, B, (circ_last _ _ _ Ct). sb m3; [auto|]. sb m4; [auto|].
  destruct (clear_ok m4 src) as (m5 & -> & F5 & B5 & L5); [auto|]. exists m5. split; [reflexivity|]. split; [|split].
  - intros x. rewrite F5, F2, F1, F0, F. reflexivity.
  - intros x. rewrite B5, B2, B1, B0, B. reflexivity.
  - intros x Hx. auto 10.
Qed.

Lemma attach_ok m l src s : l <> src -> alive m (Nl l) -> circ m (Nl src) (map El s) -> s <> [] ->
  exists m', attach m l src = Ok m' /\
    spliced m m' (Nl l) (hd (Nl src) (map El s)) (last (map El s) (Nl src)) (Nl l) (Nl src).
Proof.
  intros Hl Al Cs Hs. unfold attach. rewrite (empty_ok m src s) by auto. cbn [rbind].
  destruct (length s =? 0) eqn:E0; [destruct s; [congruence|discriminate]|].
  pose proof (circ_null_alive _ _ _ Cs) as As. destruct (last_alive _ _ _ Cs) as [Az Af].
  destruct (map_hd s (Nl src) Hs) as [nf Ef]. destruct (map_last s (Nl src) Hs) as [nz Ez].
  assert (Hf : front m src = Ok nf).
  { unfold front. rewrite fnext_ok by auto. cbn [rbind]. rewrite (circ_first _ _ _ Cs), Ef. reflexivity. }
  assert (Hb : back m src = Ok nz).
  { unfold back. rewrite bnext_ok by auto. cbn [rbind]. rewrite (circ_last _ _ _ Cs), Ez. reflexivity. }
  rewrite Hf, Hb. cbn [rbind]. rewrite Ef, Ez in *.
  sf m1; [auto|]. sf m2; [auto|]. sb m3; [auto|]. sb m4; [auto|].
  destruct (clear_ok m4 src) as (m5 & -> & F5 & B5 & L5); [auto|]. exists m5. split; [reflexivity|]. split; [|split].
  - intros x. rewrite F5, F2, F1, F0, F. reflexivity.
  - intros x. rewrite B5, B2, B1, B0, B. reflexivity.
  - intros x Hx. auto 10.
Qed.
