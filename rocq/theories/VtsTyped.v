(** What is read from an older version is a value of the new type. *)
From Coq Require Import ZifyBool ZifyNat.
From Verif Require Import Common Int2ArrayModel CodecModel CodecSpec CodecProofs VtsModel VtsSpec VtsProofs VtsEvolve.
Local Open Scope Z_scope.

(** Objects of the type can be default-constructed, and are then values of the type: zero
    is an enumerator, a variant has an alternative, the default member initializers fit. *)
Fixpoint constructible (E : env) (t : ty) : Prop :=
  match t with
  | TEnum _ _ (Some c) => 0 < c
  | TInt _ _ | TBool | TEnum _ _ None | TStr _ | TTime _ => True
  | TOpt t | TArr _ t | TVec t | TDeque _ t | TSet _ t => constructible E t
  | TMap _ k t => constructible E k /\ constructible E t
  | TVar ts => ts <> [] /\ all (map (constructible E) ts)
  | TTuple ts => all (map (constructible E) ts)
  | TStruct sid fs => each (map (fun f => has_ty E (snd f)) fs) (init E sid) /\ all (map (fun f => constructible E (snd f)) fs)
  end.
(** An empty string is never too long. *)
Definition empty_fits (E : env) : Prop := alloc_ok E 0 = true /\ match limit E with Some m => 0 <= m | None => True end.

Section Typed.
Context (E : env) (N : schema).

Lemma each_default ts : Forall (fun t => in_schema N t -> constructible E t -> has_ty E t (default E t)) ts -> all (map (in_schema N) ts) -> all (map (constructible E) ts) ->
  each (map (has_ty E) ts) (map (default E) ts).
Proof. induction 1 as [|t ts Ht Hts IH]; intros A1 A2; cbn in *; [exact I|]. destruct A1, A2. split; auto. Qed.
Lemma range_zero sg w : (0 < w)%nat -> range sg w 0.
Proof.
  intros H. unfold range. assert (K : 0 < 2 ^ (8 * Z.of_nat w - 1)) by (apply Z.pow_pos_nonneg; lia). assert (K2 : 0 < 2 ^ (8 * Z.of_nat w)) by (apply Z.pow_pos_nonneg; lia).
  destruct sg; lia.
Qed.
Theorem default_has_ty t : empty_fits E -> in_schema N t -> constructible E t -> has_ty E t (default E t).
Proof.
  intros [HA HL]. assert (F0 : fits E 0) by (split; [unfold small; cbn; lia|exact HA]). assert (S0 : small 0) by (unfold small; cbn; lia).
  induction t using ty_ind'; intros HI HC; cbn [in_schema constructible has_ty default length] in *; auto.
  - now apply range_zero.
  - split; [now apply range_zero|]. destruct c; auto.
  - lia.
  - split; [apply repeat_length|]. apply Forall_forall. intros x Hx. apply repeat_spec in Hx. subst. auto.
  - repeat split; auto. destruct c; auto. lia.
  - repeat split; auto.
  - repeat split; auto.
  - destruct HI as [HI _], HC as [HN HC]. destruct ts as [|t ts]; [congruence|]. cbn [nth_error map]. inversion H; subst. destruct HI, HC. auto.
  - now apply each_default.
  - apply HC.
Qed.

Context (rename : nat -> fname -> fname) (type_map : fname -> fname) (rho : nat -> nat).
Notation mig := (mig E N rename type_map rho).
Lemma all2_forall {A B} (P : A -> B -> Prop) (Q : B -> Prop) l : forall m, (forall x y, In x l -> P x y -> Q y) -> all2 P l m -> Forall Q m.
Proof. induction l as [|x l IH]; intros [|y m] H A2; cbn in A2; try contradiction; constructor; [eapply H; [now left|apply A2]|]. apply IH; [intros; eapply H; eauto; now right|apply A2]. Qed.
Lemma all3_forall {A B C} (P : A -> B -> C -> Prop) (R : B -> Prop) (Q : C -> Prop) l : forall m n, (forall x y z, In x l -> R y -> P x y z -> Q z) -> Forall R m -> all3 P l m n -> Forall Q n.
Proof.
  induction l as [|x l IH]; intros [|y m] [|z n] H F A3; cbn in A3; try contradiction; constructor; inversion F; subst; [eapply H; [now left|eauto|apply A3]|].
  eapply IH; [intros; eapply H; eauto; now right|eauto|apply A3].
Qed.
Lemma each_of_nth (ps : list (val -> Prop)) : forall l, length l = length ps -> (forall j p v, nth_error ps j = Some p -> nth_error l j = Some v -> p v) -> each ps l.
Proof.
  induction ps as [|p ps IH]; intros [|v l] L H; cbn in L; try lia; [exact I|]. split; [apply (H O); reflexivity|]. apply IH; [lia|]. intros j q w H1 H2. apply (H (S j)); auto.
Qed.
Lemma nth_lt {A} (l : list A) j : (j < length l)%nat -> exists x, nth_error l j = Some x.
Proof. intros H. destruct (nth_error l j) eqn:Ej; [eauto|]. apply nth_error_None in Ej. lia. Qed.

Lemma all3_length {A B C} (P : A -> B -> C -> Prop) l : forall m n, all3 P l m n -> length l = length n.
Proof. induction l as [|x l IH]; intros [|y m] [|z n] H; cbn in *; try tauto. f_equal. eapply IH. apply H. Qed.

Theorem mig_has_ty t1 : empty_fits E -> forall v1 t2 d v2, in_schema N t2 -> constructible E t2 -> has_ty E t2 d -> has_ty E t1 v1 ->
  mig t1 v1 (Some (t2, d, v2)) -> has_ty E t2 v2.
Proof.
  intros HE. induction t1 using ty_ind'; intros v1 t2 d v2 HI HC HD HT M;
    try (cbn [VtsSpec.mig] in M; destruct M as (-> & _ & ->); exact HT).
  - (* optional *)
    destruct t2; try contradiction. cbn [VtsSpec.mig] in M. destruct M as [-> M]. destruct v1, v2; try contradiction; [exact Logic.I|]. cbn [has_ty] in *.
    eapply IHt1; [exact HI|exact HC| |exact HT|exact M]. now apply default_has_ty.
  - (* array *)
    destruct t2 as [| | | | | |m b| | | | | | |]; try contradiction. cbn [VtsSpec.mig] in M. destruct v1 as [| | | | |l1| | |], v2 as [| | | | |l2| | |]; try contradiction.
    destruct M as [-> M]. cbn [has_ty in_schema constructible] in *. destruct d as [| | | | |dl| | |]; try contradiction. destruct HD as [Ld HD], HT as [L1 HT]. cbn [as_list] in M.
    split; [rewrite <- (all3_length _ _ _ _ M); exact L1|]. eapply (all3_forall _ (has_ty E b)); [|exact HD|exact M]. cbv beta. intros x y z Hx Hy Hm.
    eapply IHt1; [exact HI|exact HC|exact Hy| |exact Hm]. now apply (proj1 (Forall_forall _ _) HT).
  - (* vector *)
    destruct t2 as [| | | | | | |b| | | | | |]; try contradiction. cbn [VtsSpec.mig] in M. destruct v1 as [| | | | |l1| | |], v2 as [| | | | |l2| | |]; try contradiction.
    destruct M as (_ & F & M). cbn [has_ty in_schema constructible] in *. destruct HT as [HT _]. rewrite (all2_length _ _ _ M) in F. split; auto.
    eapply all2_forall; [|exact M]. cbv beta. intros x y Hx Hm. eapply IHt1; [exact HI|exact HC|now apply default_has_ty| |exact Hm]. now apply (proj1 (Forall_forall _ _) HT).
  - (* deque *)
    destruct t2 as [| | | | | | | |c' b| | | | |]; try contradiction. cbn [VtsSpec.mig] in M. destruct v1 as [| | | | |l1| | |], v2 as [| | | | |l2| | |]; try contradiction.
    destruct M as (_ & F & F2 & M). cbn [has_ty in_schema constructible] in *. destruct HT as [HT _]. rewrite (all2_length _ _ _ M) in F, F2. split; [|auto].
    eapply all2_forall; [|exact M]. cbv beta. intros x y Hx Hm. eapply IHt1; [exact HI|exact HC|now apply default_has_ty| |exact Hm]. now apply (proj1 (Forall_forall _ _) HT).
  - (* set *)
    destruct t2 as [| | | | | | | | |c' b| | | |]; try contradiction. cbn [VtsSpec.mig] in M. destruct v1 as [| | | | |l1| | |], v2 as [| | | | |l2| | |]; try contradiction.
    destruct M as (_ & F & F2 & M). cbn [has_ty in_schema constructible] in *. destruct HT as [HT _]. rewrite (all2_length _ _ _ M) in F. split; [|auto].
    eapply all2_forall; [|exact M]. cbv beta. intros x y Hx Hm. eapply IHt1; [exact HI|exact HC|now apply default_has_ty| |exact Hm]. now apply (proj1 (Forall_forall _ _) HT).
  - (* map *)
    destruct t2 as [| | | | | | | | | |c' b b'| | |]; try contradiction. cbn [VtsSpec.mig] in M. destruct v1 as [| | | | |l1| | |], v2 as [| | | | |l2| | |]; try contradiction.
    destruct M as (_ & F & F2 & M). cbn [has_ty in_schema constructible] in *. destruct HT as [HT _]. destruct HI, HC. rewrite (all2_length _ _ _ M) in F. split; [|auto].
    eapply all2_forall; [|exact M]. cbv beta. intros x y Hx Hm. pose proof (proj1 (Forall_forall _ _) HT x Hx) as Hp. destruct x; try contradiction. destruct y; try contradiction. destruct Hp, Hm.
    split; [eapply IHt1_1|eapply IHt1_2]; eauto; now apply default_has_ty.
  - (* variant *)
    destruct t2 as [| | | | | | | | | | |us| |]; try contradiction. cbn [VtsSpec.mig] in M. destruct v1 as [| | | | | | |i x|], v2 as [| | | | | | |j y|]; try contradiction.
    destruct M as (<- & _ & M). cbn [has_ty in_schema constructible] in *. rewrite nth_error_map in *. destruct (nth_error us i) as [u|] eqn:Eu; [|contradiction]. cbn [option_map].
    destruct HI as [HI _], HC as [_ HC]. assert (Hu : In u us) by (eapply nth_error_In; eauto). destruct (nth_error ts i) as [t|] eqn:Et; cbn [option_map] in *; [|contradiction].
    apply (proj1 (Forall_forall _ _) H t (nth_error_In _ _ Et)) with (v1 := x) (d := default E u); auto; [eapply in_all; eauto|eapply in_all; eauto|].
    apply default_has_ty; auto; eapply in_all; eauto.
  - (* tuple *) destruct t2; contradiction.
  - (* structure *)
    destruct t2 as [| | | | | | | | | | | | |s2 fs2]; try contradiction. cbn [VtsSpec.mig] in M. destruct v1 as [| | | | | | | |l1], v2 as [| | | | | | | |l2]; try contradiction.
    destruct M as (_ & _ & _ & _ & L2 & Ld & HF & Hk). apply fields_all2 in HF. cbn [has_ty] in *. destruct d as [| | | | | | | |dl]; try contradiction. cbn [as_list] in *.
    cbn [in_schema constructible] in HI, HC. destruct HI as [_ HI], HC as [_ HC]. rewrite (map_snd (in_schema N)) in HI. rewrite (map_snd (constructible E)) in HC.
    apply each_of_nth; [now rewrite map_length|]. intros j p v Hp Hv. rewrite nth_error_map in Hp. destruct (nth_error fs2 j) as [g|] eqn:Eg; [|discriminate]. cbn in Hp. injection Hp as <-.
    assert (Hg : In (snd g) (map snd fs2)) by (apply in_map; eapply nth_error_In; eauto).
    assert (Dj : exists e, nth_error dl j = Some e /\ has_ty E (snd g) e).
    { destruct (nth_lt dl j) as [e He]; [rewrite Ld; apply nth_error_Some; congruence|]. exists e. split; auto. eapply (each_nth _ _ j _ _ HD); eauto. now rewrite nth_error_map, Eg. }
    assert (Dec : (exists i f x, nth_error fs i = Some f /\ nth_error l1 i = Some x /\ index_of (rename s2 (fst f)) fs2 = Some j) \/ (forall f, In f fs -> index_of (rename s2 (fst f)) fs2 <> Some j)).
    { clear -HF. revert l1 HF. induction fs as [|f fs IH]; intros [|x l1] HF; cbn in HF; try contradiction; [right; intros f []|]. destruct HF as [_ HF].
      destruct (index_of (rename s2 (fst f)) fs2) as [k|] eqn:Ek.
      - destruct (Nat.eq_dec k j) as [->|Nj]; [left; exists O, f, x; auto|]. destruct (IH _ HF) as [(i & f' & x' & A)|A]; [left; exists (S i), f', x'; exact A|right].
        intros f' [<-|Hf]; [congruence|auto].
      - destruct (IH _ HF) as [(i & f' & x' & A)|A]; [left; exists (S i), f', x'; exact A|right]. intros f' [<-|Hf]; [congruence|auto]. }
    destruct Dec as [(i & f & x & Hf & Hx & Hj)|No].
    + assert (Px : forall fs l k, all2 (fun f x => match index_of (rename s2 (fst f)) fs2 with
             | Some j => exists t e y, nth_error (map snd fs2) j = Some t /\ nth_error dl j = Some e /\ nth_error l2 j = Some y /\ same_name type_map (snd f) t /\ mig (snd f) x (Some (t, e, y))
             | None => mig (snd f) x None end) fs l -> nth_error fs k = Some f -> nth_error l k = Some x ->
             exists t e y, nth_error (map snd fs2) j = Some t /\ nth_error dl j = Some e /\ nth_error l2 j = Some y /\ mig (snd f) x (Some (t, e, y))).
      { induction fs0 as [|q fs0 IH]; intros [|z l] [|k] HA K1 K2; cbn in K1, K2; try discriminate; destruct HA as [A1 A2].
        - injection K1 as ->. injection K2 as ->. rewrite Hj in A1. destruct A1 as (t & e & y & T1 & T2 & T3 & _ & T5). eauto 8.
        - eauto. }
      destruct (Px _ _ _ HF Hf Hx) as (t & e & y & T1 & T2 & T3 & T5). rewrite nth_error_map, Eg in T1. cbn in T1. injection T1 as <-.
      destruct Dj as (e' & He' & Te). rewrite T2 in He'. injection He' as <-. rewrite Hv in T3. injection T3 as <-.
      apply (proj1 (Forall_forall _ _) H f (nth_error_In _ _ Hf)) with (v1 := x) (d := e); auto; [eapply in_all; eauto|eapply in_all; eauto|].
      eapply (each_nth _ _ i _ _ HT); eauto. now rewrite nth_error_map, Hf.
    + destruct Dj as (e & He & Te). specialize (Hk j No). rewrite Hv, He in Hk. injection Hk as ->. exact Te.
Qed.
End Typed.
