(** C104: composite comparers whose keys have different types, and the keys that make_key builds. *)
From Coq Require Import ZifyBool ZifyNat.
From Verif Require Import Common CompareModel CompareProps VSetModel VSetProg VSetSpec VSetProofs VSetProps CompKeyModel.

(** ** Specification *)
(** A key whose values are there *)
Fixpoint vals (Ks : list Type) : Type := match Ks with [] => unit | K :: r => (K * vals r)%type end.
Fixpoint live {Ks} : vals Ks -> krefs Ks :=
  match Ks return vals Ks -> krefs Ks with [] => fun u => u | K :: r => fun v => (Live (fst v), live (snd v)) end.

(** Lexicographic product of two orders *)
Definition lexprod {A B} (l1 : A -> A -> bool) (l2 : B -> B -> bool) (x y : A * B) : bool :=
  l1 (fst x) (fst y) || (negb (l1 (fst y) (fst x)) && l2 (snd x) (snd y)).

(** [orders cs key lt]: each comparer orders by a member of the key, and the whole key is compared member by member. *)
Inductive orders {T} : forall {Ks}, comps T Ks -> (T -> vals Ks) -> (vals Ks -> vals Ks -> bool) -> Prop :=
| OrdNil : orders CsNil (fun _ => Datatypes.tt) (fun _ _ => false)
| OrdCons K Ks (c : tcmp T K) (cs : comps T Ks) k1 l1 k2 l2 : strict_weak l1 -> by_key c k1 l1 -> orders cs k2 l2 ->
    orders (CsCons c cs) (fun x => (k1 x, k2 x)) (lexprod l1 l2).

Inductive all_coherent {T} : forall {Ks}, comps T Ks -> Prop :=
| AcNil : all_coherent CsNil
| AcCons K Ks (c : tcmp T K) (cs : comps T Ks) : coherent c -> all_coherent cs -> all_coherent (CsCons c cs).

(** ** Proofs *)
Lemma lexprod_sw {A B} (l1 : A -> A -> bool) (l2 : B -> B -> bool) : strict_weak l1 -> strict_weak l2 -> strict_weak (lexprod l1 l2).
Proof.
  intros S1 S2.
  pose proof (composite_strict_weak [fun x y : A * B => l1 (fst x) (fst y); fun x y => l2 (snd x) (snd y)]) as C.
  assert (E : forall x y, lexprod l1 l2 x y = composite [fun x y : A * B => l1 (fst x) (fst y); fun x y => l2 (snd x) (snd y)] x y).
  { intros x y. unfold lexprod. cbn [composite]. destruct (l1 (fst x) (fst y)); [reflexivity|]. destruct (l1 (fst y) (fst x)); [reflexivity|]. cbn.
    destruct (l2 (snd x) (snd y)); [reflexivity|]. now destruct (l2 (snd y) (snd x)). }
  assert (Q : strict_weak (composite [fun x y : A * B => l1 (fst x) (fst y); fun x y => l2 (snd x) (snd y)])).
  { apply C. repeat constructor; intros; solve [apply (sw_irrefl _ S1)|apply (sw_irrefl _ S2)|eapply (sw_trans _ S1); eauto|eapply (sw_trans _ S2); eauto
      |eapply (sw_incomp _ S1); eauto|eapply (sw_incomp _ S2); eauto]. }
  split; intros; rewrite ?E in *; [apply (sw_irrefl _ Q)|eapply (sw_trans _ Q); eauto|eapply (sw_incomp _ Q); eauto].
Qed.

Lemma orders_exist {T Ks} (cs : comps T Ks) : all_coherent cs -> exists key lt, orders cs key lt.
Proof.
  induction 1 as [|K Ks c cs (k1 & l1 & S & B) _ (k2 & l2 & O)]; [eexists; eexists; constructor|].
  eexists; eexists. econstructor; eauto.
Qed.

Lemma orders_sw {T Ks} (cs : comps T Ks) key lt : orders cs key lt -> strict_weak lt.
Proof. induction 1; [split; auto; discriminate|now apply lexprod_sw]. Qed.

(** The comparer of a vector_set with keys that are alive *)
Definition unres (r : res bool) : bool := match r with Ok b => b | _ => false end.
Definition comp_key {T Ks} (cs : comps T Ks) : tcmp T (vals Ks) :=
  {| tt := hc_tt cs; tk := fun x k => unres (hc_tk cs x (live k)); kt := fun k x => unres (hc_kt cs x (live k)) |}.

(** *** Theorems *)

(** With a key whose values are alive the comparisons are defined and those of the keys, member by member. *)
Theorem comp_key_orders {T Ks} (cs : comps T Ks) key lt : orders cs key lt -> forall x y k,
  hc_tt cs x y = lt (key x) (key y) /\ hc_tk cs x (live k) = Ok (lt (key x) k) /\ hc_kt cs x (live k) = Ok (lt k (key x)).
Proof.
  induction 1 as [|K Ks c cs k1 l1 k2 l2 S (B1 & B2 & B3) O IH]; intros x y k; [repeat split|].
  change (vals (K :: Ks)) with (K * vals Ks)%type in k. destruct k as [a k]. destruct (IH x y k) as (H1 & H2 & H3). unfold lexprod. cbn [hc_tt hc_tk hc_kt live fst snd deref rbind]. rewrite !B1, !B2, !B3, H1, H2, H3.
  repeat split.
  - destruct (l1 (k1 x) (k1 y)); [reflexivity|]. now destruct (l1 (k1 y) (k1 x)).
  - destruct (l1 (k1 x) a); [reflexivity|]. now destruct (l1 a (k1 x)).
  - destruct (l1 a (k1 x)); [reflexivity|]. now destruct (l1 (k1 x) a).
Qed.

(** So a composite of coherent comparers is coherent, whatever the types of the keys are... *)
Theorem comp_key_coherent {T Ks} (cs : comps T Ks) : all_coherent cs -> coherent (comp_key cs).
Proof.
  intros A. destruct (orders_exist cs A) as (key & lt & O). exists key, lt. split; [eapply orders_sw; eauto|].
  repeat split; intros; cbn [tt tk kt comp_key].
  - apply (comp_key_orders cs key lt O x y (key x)).
  - now rewrite (proj1 (proj2 (comp_key_orders cs key lt O x x k))).
  - now rewrite (proj2 (proj2 (comp_key_orders cs key lt O x x k))).
Qed.

(** ... and a vector_set that is ordered by it behaves as a sorted list, also for lookups by composite keys. *)
Theorem comp_key_vset {T Ks} (cs : comps T Ks) : all_coherent cs -> forall (os : list (vop T (vals Ks))) se vs,
  srun (hc_tt cs) (kt (comp_key cs)) (tk (comp_key cs)) sinit os = Some (se, vs, true) ->
  exists e, vrun (hc_tt cs) (kt (comp_key cs)) (tk (comp_key cs)) vinit os = Ok (e, vs).
Proof. intros A. exact (coherent_vset (comp_key cs) (comp_key_coherent cs A)). Qed.

(** A key with dangling members is used with undefined behaviour exactly if all members before the first dangling one are
    equivalent to those of the element; so it depends on the elements of the set whether such a key does harm. *)
Fixpoint stumbles {T Ks} (x : T) (cs : comps T Ks) : krefs Ks -> Prop :=
  match cs in comps _ Ks return krefs Ks -> Prop with
  | CsNil => fun _ => False
  | CsCons c cs => fun k => match fst k with Dangling => True | Live a => tk c x a = false /\ kt c a x = false /\ stumbles x cs (snd k) end
  end.

Theorem comp_key_ub {T Ks} (cs : comps T Ks) x k :
  (hc_tk cs x k = UB <-> stumbles x cs k) /\ (hc_kt cs x k = UB <-> stumbles x cs k).
Proof.
  revert k. induction cs as [|K Ks c cs IH]; intros k.
  - split; (split; [discriminate|intros []]).
  - change (krefs (K :: Ks)) with (kref K * krefs Ks)%type in k. destruct k as [r k]. destruct (IH k) as [I1 I2]. destruct r as [a|]; cbn [hc_tk hc_kt fst snd deref rbind stumbles].
    + destruct (tk c x a), (kt c a x); try (intuition discriminate); rewrite I1, I2; intuition discriminate.
    + split; (split; [intros _; exact I|reflexivity]).
Qed.

(** *** make_key *)
Local Open Scope Z_scope.

Definition fits (a : karg) : Prop := icast (aty a) (aval a) = aval a.
(** The key the caller means: the arguments converted to the types of the members *)
Fixpoint meant (ks : list ity) (l : list karg) : vals (zkeys ks) :=
  match ks, l with
  | k :: ks', a :: l' => (icast k (aval a), meant ks' l')
  | k :: ks', [] => (0, meant ks' [])
  | [], _ => Datatypes.tt
  end.

Lemma ity_eqb_spec a b : ity_eqb a b = true <-> a = b.
Proof.
  unfold ity_eqb. destruct a as [s1 b1], b as [s2 b2]; cbn. rewrite andb_true_iff, Bool.eqb_true_iff, Nat.eqb_eq. intuition congruence.
Qed.

(** make_key gives the key that is meant if every argument has the type of the member, or a type that the usual
    arithmetic conversions take to it. *)
Theorem make_key_partial ks l : length l = length ks -> Forall fits l -> Forall2 (fun k a => common k (aty a) = k) ks l ->
  make_key ks l = live (meant ks l).
Proof.
  intros L F H. revert L F. induction H as [|k a ks l C H IH]; intros L F; [reflexivity|].
  inversion F as [|? ? F1 F2]; subst. cbn [make_key meant live zkeys fst snd]. rewrite IH by (auto; cbn in L; lia). f_equal.
  unfold make_elem, bind_elem. rewrite C. destruct (ity_eqb k (aty a)) eqn:E; cbn [andb].
  - apply ity_eqb_spec in E. rewrite E. unfold fits in F1. destruct (alv a); [now rewrite F1|].
    assert (R : ity_eqb (aty a) (aty a) = true) by now apply ity_eqb_spec. now rewrite R.
  - assert (R : ity_eqb k k = true) by now apply ity_eqb_spec. now rewrite R.
Qed.

(** Which argument types these are: the type of the member itself, or, for a member of at least 32 bits, a type that is after
    promotion narrower, or as wide unless the member is signed and the argument unsigned. *)
Theorem make_key_types k a : common k a = k <->
  a = k \/ (32 <= ibits k)%nat /\ ((ibits (promote a) < ibits k)%nat \/ ibits (promote a) = ibits k /\ (isg k = false \/ isg (promote a) = true)).
Proof.
  unfold common. destruct (ity_eqb k a) eqn:E.
  - apply ity_eqb_spec in E. subst. split; auto.
  - assert (N : a <> k) by (intros ->; assert (ity_eqb k k = true) by (now apply ity_eqb_spec); congruence).
    unfold arith. assert (P : (32 <= ibits (promote a))%nat) by (unfold promote; destruct (ibits a <? 32)%nat eqn:Q; cbn; lia).
    assert (Pk : (ibits k < 32)%nat /\ promote k = IT true 32 \/ (32 <= ibits k)%nat /\ promote k = k) by (unfold promote; destruct (ibits k <? 32)%nat eqn:Q; [left|right]; (split; [lia|reflexivity])).
    remember (promote a) as p eqn:Ep. clear Ep. destruct k as [sk bk], p as [sp bp]; cbn [isg ibits] in *.
    destruct Pk as [[Q ->]|[Q ->]]; cbn [isg ibits].
    + split; [|intuition lia]. destruct (32 <? bp)%nat eqn:Q1; [intros H; injection H as -> ->; lia|].
      destruct (bp <? 32)%nat eqn:Q2; intros H; injection H as H1 H2; lia.
    + destruct (bk <? bp)%nat eqn:Q1; [split; [intros H; injection H as -> ->; lia|intuition lia]|].
      destruct (bp <? bk)%nat eqn:Q2; [split; [intros _; right; split; [lia|left; lia]|reflexivity]|].
      assert (bp = bk) by lia. subst. split.
      * intros H. injection H as H. right. split; [lia|]. right. split; [reflexivity|]. destruct sk, sp; cbn in *; auto.
      * intros [H|[_ [H|[_ H]]]]; [congruence|lia|]. destruct sk, sp; cbn; try reflexivity. destruct H; discriminate.
Qed.

Definition t_int := IT true 32. Definition t_short := IT true 16. Definition t_size := IT false 64. Definition t_long := IT true 64.
Definition by_int (T : Type) (get : T -> Z) : tcmp T Z := key_compare (fun x => x) get Z.ltb.

(** Otherwise the key refers to a temporary that has been destroyed: an int member with an argument of the type size_t, and a short
    member with a literal.  The elements that are compared do not matter. *)
Theorem make_key_refuted :
  (exists (cs : comps Z (zkeys [t_int])), all_coherent cs /\ forall x lv v, hc_tk cs x (make_key [t_int] [KArg t_size lv v]) = UB) /\
  (exists (cs : comps Z (zkeys [t_short])), all_coherent cs /\ forall x lv v, hc_tk cs x (make_key [t_short] [KArg t_int lv v]) = UB).
Proof.
  split; exists (CsCons (by_int Z (fun z => z)) CsNil); (split; [repeat constructor; apply key_compare_coherent, z_strict_weak|]);
    intros x lv v; cbn; unfold make_elem; cbn; reflexivity.
Qed.

(** Wallets ordered by an account number (int) and then by a name: the key is found with an int and a short argument and a name;
    keys compare member by member. *)
Definition by_name : tcmp (Z * list nat) (list nat) := key_compare (fun x => x) snd (fun a b => (list_sum a <? list_sum b)%nat).
Definition wallets : comps (Z * list nat) (@cons Type Z (@cons Type (list nat) nil)) := CsCons (by_int _ fst) (CsCons by_name CsNil).
Example ex_comp_key :
  hc_tk wallets (3, [1%nat]) (Live 3, (Live [2%nat], Datatypes.tt)) = Ok true /\ hc_kt wallets (3, [1%nat]) (Live 3, (Live [2%nat], Datatypes.tt)) = Ok false /\
  hc_tk wallets (3, [1%nat]) (Live 2, (Dangling, Datatypes.tt)) = Ok false /\ hc_tk wallets (3, [1%nat]) (Live 3, (Dangling, Datatypes.tt)) = UB /\
  make_key [t_int; t_size] [KArg t_short true (-5); KArg t_int false 7] = (Live (-5), (Live 7, Datatypes.tt)) /\
  make_key [t_size; t_long] [KArg t_int false (-1); KArg t_size false 7] = (Live 18446744073709551615, (Dangling, Datatypes.tt)).
Proof. vm_compute. repeat split; reflexivity. Qed.
