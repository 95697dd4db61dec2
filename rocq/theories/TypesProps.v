(** The types of a structure (C68), indices of fields (C69). *)
From Coq Require Import ZifyBool ZifyNat.
From Verif Require Import Common CodecModel CodecSpec VtsModel VtsSpec VtsProofs TypesModel.

(** ** Specification *)
(** The types a type is made of *)
Inductive component : ty -> ty -> Prop :=
| c_opt u : component u (TOpt u)
| c_arr n u : component u (TArr n u)
| c_vec u : component u (TVec u)
| c_deque c u : component u (TDeque c u)
| c_set c u : component u (TSet c u)
| c_key c k v : component k (TMap c k v)
| c_mapped c k v : component v (TMap c k v)
| c_var u ts : In u ts -> component u (TVar ts)
| c_tuple u ts : In u ts -> component u (TTuple ts)
| c_field f sid fs : In f fs -> component (snd f) (TStruct sid fs).
Inductive part : ty -> ty -> Prop :=
| part_self t : part t t
| part_of u c t : component c t -> part u c -> part u t.
Definition is_tuple (t : ty) : bool := match t with TTuple _ => true | _ => false end.
(** The number of a structure stands for its definition. *)
Definition one_definition (F : nat -> list (fname * ty)) (t : ty) : Prop := forall sid fs, part (TStruct sid fs) t -> fs = F sid.
(** A field of a versioned structure is not a tuple: it would not compile. *)
Definition no_tuple_fields (t : ty) : Prop := forall sid fs f, part (TStruct sid fs) t -> In f fs -> is_tuple (snd f) = false.
(** Sizes, as in in_schema *)
Definition sane (t : ty) : Prop :=
  match t with
  | TInt _ w | TEnum _ w _ | TStr w => (0 < w)%nat
  | TTime k => (0 < k)%Z
  | TVar ts => small (length ts)
  | _ => True
  end.

(** ** Parts *)
Lemma part_trans a b c : part a b -> part b c -> part a c.
Proof. intros H K. revert a H. induction K as [|u c t Hc K IH]; auto. intros a H. eapply part_of; eauto. Qed.
Lemma part_inv u t : part u t -> u = t \/ exists c, component c t /\ part u c.
Proof. intros H. inversion H; subst; eauto. Qed.

(** ** Identity *)
Section Identity.
Context (F : nat -> list (fname * ty)).
Lemma one_definition_part a t : one_definition F t -> part a t -> one_definition F a.
Proof. intros H P sid fs Q. apply H. eapply part_trans; eauto. Qed.
Lemma one_definition_comp c t : one_definition F t -> component c t -> one_definition F c.
Proof. intros H C. eapply one_definition_part; eauto. eapply part_of; eauto. apply part_self. Qed.
Lemma same_type a : forall b, one_definition F a -> one_definition F b -> ty_eqb a b = true -> a = b.
Proof.
  assert (L : forall ts us, Forall (fun a => forall b, one_definition F a -> one_definition F b -> ty_eqb a b = true -> a = b) ts -> (forall t, In t ts -> one_definition F t) -> (forall t, In t us -> one_definition F t) ->
    (fix list_eqb l m := match l, m with [], [] => true | x :: l, y :: m => ty_eqb x y && list_eqb l m | _, _ => false end) ts us = true -> ts = us).
  { intros ts us H. revert us. induction H as [|t ts Ht Hts IH]; intros [|u us] H1 H2 E; try discriminate; auto. apply andb_prop in E as [E1 E2]. f_equal; [apply Ht; auto; [apply H1|apply H2]; now left|]. apply IH; auto; intros; [apply H1|apply H2]; now right. }
  assert (C : forall c t, one_definition F t -> component c t -> one_definition F c) by (intros; eapply one_definition_comp; eauto).
  induction a using ty_ind'; intros b Ha Hb E; destruct b; try discriminate; cbn [ty_eqb] in E; repeat (apply andb_prop in E as [E ?]);
    repeat match goal with H : Nat.eqb _ _ = true |- _ => apply Nat.eqb_eq in H; subst | H : Bool.eqb _ _ = true |- _ => apply Bool.eqb_prop in H; subst | H : Z.eqb _ _ = true |- _ => apply Z.eqb_eq in H; subst end; auto.
  - f_equal. destruct c, count; try discriminate; auto. f_equal. lia.
  - f_equal. apply IHa; auto; [apply (C _ _ Ha)|apply (C _ _ Hb)]; constructor.
  - f_equal. apply IHa; auto; [apply (C _ _ Ha)|apply (C _ _ Hb)]; constructor.
  - f_equal. apply IHa; auto; [apply (C _ _ Ha)|apply (C _ _ Hb)]; constructor.
  - f_equal; [|apply IHa; auto; [apply (C _ _ Ha)|apply (C _ _ Hb)]; constructor]. destruct c, cap; try discriminate; auto. f_equal. now apply Nat.eqb_eq.
  - f_equal. apply IHa; auto; [apply (C _ _ Ha)|apply (C _ _ Hb)]; constructor.
  - f_equal; [apply IHa1|apply IHa2]; auto; try (apply (C _ _ Ha); constructor); apply (C _ _ Hb); constructor.
  - f_equal. apply L; auto; intros; [apply (C _ _ Ha)|apply (C _ _ Hb)]; now constructor.
  - f_equal. apply L; auto; intros; [apply (C _ _ Ha)|apply (C _ _ Hb)]; now constructor.
  - match goal with Ha : one_definition _ (TStruct ?s ?fs), Hb : one_definition _ (TStruct ?s' ?fs') |- _ => rewrite (Ha s fs (part_self _)), (Hb s' fs' (part_self _)) end. reflexivity.
Qed.
End Identity.

(** ** Collections *)
Section Collect.
Context (extra : nat -> list ty).
Lemma collect_head t : is_tuple t = false -> In t (collect extra t).
Proof. destruct t; cbn; auto; try discriminate; intros _; try (destruct (arithmetic _)); cbn; auto. Qed.
(** Everything is collected except tuples and elements of arithmetic vectors and arrays. *)
Lemma collect_part u t : part u t -> is_tuple u = false -> arithmetic u = false -> In u (collect extra t).
Proof.
  intros P Hu Ha. induction P as [t|u c t C P IH]; [now apply collect_head|]. specialize (IH Hu Ha).
  destruct C; cbn [collect]; try (right; exact IH).
  - destruct (arithmetic u0) eqn:A; [|now right]. destruct u0; try discriminate; cbn in IH; destruct IH as [<-|[]]; discriminate.
  - destruct (arithmetic u0) eqn:A; [|now right]. destruct u0; try discriminate; cbn in IH; destruct IH as [<-|[]]; discriminate.
  - right. apply in_or_app. now left.
  - right. apply in_or_app. now right.
  - right. apply in_concat. eexists. split; [apply in_map; eauto|exact IH].
  - apply in_concat. eexists. split; [apply in_map; eauto|exact IH].
  - right. apply in_or_app. left. apply in_concat. eexists. split; [apply (in_map (fun f => collect extra (snd f))); eauto|exact IH].
Qed.
Lemma collect_trans a t : part a t -> is_tuple a = false -> arithmetic a = false -> forall u, In u (collect extra a) -> In u (collect extra t).
Proof.
  intros P Ha Hb. induction P as [t|a c t C P IH]; auto. intros u Hu. specialize (IH Ha Hb u Hu).
  destruct C; cbn [collect]; try (right; exact IH).
  - destruct (arithmetic u0) eqn:A; [|now right]. destruct u0; try discriminate; inversion P as [|? ? ? C2]; subst; try discriminate; inversion C2.
  - destruct (arithmetic u0) eqn:A; [|now right]. destruct u0; try discriminate; inversion P as [|? ? ? C2]; subst; try discriminate; inversion C2.
  - right. apply in_or_app. now left.
  - right. apply in_or_app. now right.
  - right. apply in_concat. eexists. split; [apply in_map; eauto|exact IH].
  - apply in_concat. eexists. split; [apply in_map; eauto|exact IH].
  - right. apply in_or_app. left. apply in_concat. eexists. split; [apply (in_map (fun f => collect extra (snd f))); eauto|exact IH].
Qed.
(** What is collected is a part, or an extra type, or the integer of a time point. *)
Lemma collect_sound u t : In u (collect extra t) -> part u t \/ (exists sid fs, part (TStruct sid fs) t /\ In u (extra sid)) \/ u = TInt true 8.
Proof.
  revert u. assert (Up : forall c t u, component c t -> (part u c \/ (exists sid fs, part (TStruct sid fs) c /\ In u (extra sid)) \/ u = TInt true 8) -> part u t \/ (exists sid fs, part (TStruct sid fs) t /\ In u (extra sid)) \/ u = TInt true 8).
  { clear. intros c t u C [H|[(sid & fs & H & X)|H]]; [left; eapply part_of; eauto| |auto]. right. left. exists sid, fs. split; auto. eapply part_of; eauto. }
  induction t using ty_ind'; intros u Hu; cbn [collect] in Hu.
  - destruct Hu as [<-|[]]. left. apply part_self.
  - destruct Hu as [<-|[]]. left. apply part_self.
  - destruct Hu as [<-|[]]. left. apply part_self.
  - destruct Hu as [<-|[]]. left. apply part_self.
  - destruct Hu as [<-|[<-|[]]]; [left; apply part_self|auto].
  - destruct Hu as [<-|Hu]; [left; apply part_self|]. eapply Up; [constructor|auto].
  - destruct (arithmetic t); destruct Hu as [<-|Hu]; try (left; apply part_self); try contradiction. eapply Up; [constructor|auto].
  - destruct (arithmetic t); destruct Hu as [<-|Hu]; try (left; apply part_self); try contradiction. eapply Up; [constructor|auto].
  - destruct Hu as [<-|Hu]; [left; apply part_self|]. eapply Up; [constructor|auto].
  - destruct Hu as [<-|Hu]; [left; apply part_self|]. eapply Up; [constructor|auto].
  - destruct Hu as [<-|Hu]; [left; apply part_self|]. apply in_app_or in Hu as [Hu|Hu]; [eapply Up; [apply c_key|auto]|eapply Up; [apply c_mapped|auto]].
  - destruct Hu as [<-|Hu]; [left; apply part_self|]. apply in_concat in Hu as (l & Hl & Hu). apply in_map_iff in Hl as (t & <- & Ht). rewrite Forall_forall in H. eapply Up; [apply c_var; eauto|]. now apply H.
  - apply in_concat in Hu as (l & Hl & Hu). apply in_map_iff in Hl as (t & <- & Ht). rewrite Forall_forall in H. eapply Up; [apply c_tuple; eauto|]. now apply H.
  - destruct Hu as [<-|Hu]; [left; apply part_self|]. apply in_app_or in Hu as [Hu|Hu].
    + apply in_concat in Hu as (l & Hl & Hu). apply in_map_iff in Hl as (f & <- & Hf). rewrite Forall_forall in H. eapply Up; [apply c_field; eauto|]. now apply H.
    + right. left. match goal with |- context [TStruct ?s ?fs] => exists s, fs end. split; [apply part_self|auto].
Qed.
End Collect.

(** ** Duplicates *)
Lemma contains_spec v t : contains v t = true <-> exists u, In u v /\ ty_eqb u t = true.
Proof. unfold contains. rewrite existsb_exists. tauto. Qed.
Lemma ty_eqb_refl t : ty_eqb t t = true.
Proof.
  assert (L : forall ts, Forall (fun t => ty_eqb t t = true) ts -> (fix list_eqb l m := match l, m with [], [] => true | x :: l, y :: m => ty_eqb x y && list_eqb l m | _, _ => false end) ts ts = true).
  { induction 1 as [|x l H Hl IH]; auto. rewrite H, IH. reflexivity. }
  induction t using ty_ind'; cbn [ty_eqb]; rewrite ?Bool.eqb_reflx, ?Nat.eqb_refl, ?Z.eqb_refl, ?IHt, ?IHt1, ?IHt2; auto.
  - destruct c; auto. now rewrite Z.eqb_refl.
  - destruct c; auto. now rewrite Nat.eqb_refl.
Qed.
Section Distinct.
(** The types on which the comparison is identity *)
Context (D : ty -> Prop) (HD : forall a b, D a -> D b -> ty_eqb a b = true -> a = b).
Lemma contains_in v t : (forall u, In u v -> D u) -> D t -> contains v t = true <-> In t v.
Proof. intros Hv Ht. rewrite contains_spec. split; [intros (u & Hu & E)|intros H; exists t; split; auto using ty_eqb_refl]. apply HD in E; auto. now subst u. Qed.
Lemma convert_in v l : (forall u, In u v -> D u) -> (forall u, In u l -> D u) -> forall t, In t (convert v l) <-> In t v \/ In t l.
Proof.
  revert v. induction l as [|h l IH]; intros v Hv Hl t; cbn [convert]; [cbn; tauto|].
  assert (Hh : D h) by (apply Hl; now left). assert (Hl' : forall u, In u l -> D u) by (intros; apply Hl; now right).
  destruct (contains v h) eqn:E; cbn [negb].
  - rewrite IH by auto. cbn [In]. apply contains_in in E; auto. split; [tauto|]. intros [H|[<-|H]]; auto.
  - rewrite IH; auto. 2:{ intros u Hu. apply in_app_or in Hu as [Hu|[<-|[]]]; auto. }
    rewrite in_app_iff. cbn [In]. tauto.
Qed.
Lemma convert_nodup v l : (forall u, In u v -> D u) -> (forall u, In u l -> D u) -> NoDup v -> NoDup (convert v l).
Proof.
  revert v. induction l as [|h l IH]; intros v Hv Hl N; cbn [convert]; auto.
  assert (Hh : D h) by (apply Hl; now left). assert (Hl' : forall u, In u l -> D u) by (intros; apply Hl; now right).
  destruct (contains v h) eqn:E; cbn [negb]; [now apply IH|]. apply IH; auto.
  - intros u Hu. apply in_app_or in Hu as [Hu|[<-|[]]]; auto.
  - apply NoDup_rev in N. rewrite <- (rev_involutive (v ++ [h])). apply NoDup_rev. rewrite rev_app_distr. cbn. constructor; auto. rewrite <- in_rev. intros H. apply contains_in in H; auto. congruence.
Qed.
(** find_variant_type_v finds the only place *)
Lemma matches_one v k t : (forall u, In u v -> D u) -> NoDup v -> nth_error v k = Some t -> matches t v = [k].
Proof.
  intros Hv N E. assert (Lk : (k < length v)%nat) by (apply nth_error_Some; congruence). assert (Ht : D t) by (apply Hv; eapply nth_error_In; eauto).
  unfold matches. replace (seq 0 (length v)) with (seq 0 k ++ k :: seq (S k) (length v - S k)).
  2:{ replace (length v) with (k + S (length v - S k))%nat at 2 by lia. rewrite seq_app. reflexivity. }
  assert (Z : forall l, ~ In k l -> filter (fun j => match nth_error v j with Some u => ty_eqb t u | None => false end) l = []).
  { induction l as [|j l IH]; intros H; cbn [filter]; auto. destruct (nth_error v j) as [u|] eqn:Ej; [|apply IH; intros K; apply H; now right].
    destruct (ty_eqb t u) eqn:Eu; [|apply IH; intros K; apply H; now right]. apply HD in Eu; auto; [|apply Hv; eapply nth_error_In; eauto]. subst u.
    exfalso. apply H. left. apply (proj1 (NoDup_nth_error v) N); [apply nth_error_Some; congruence|congruence]. }
  rewrite filter_app, Z; [|rewrite in_seq; lia]. cbn [filter app]. rewrite E, ty_eqb_refl. f_equal. apply Z. rewrite in_seq. lia.
Qed.
Lemma matches_none v t : (forall u, In u v -> D u) -> D t -> ~ In t v -> matches t v = [].
Proof.
  intros Hv Ht N. unfold matches. generalize (seq 0 (length v)). induction l as [|j l IH]; auto. cbn [filter]. destruct (nth_error v j) as [u|] eqn:E; auto. destruct (ty_eqb t u) eqn:Eu; auto.
  apply nth_error_In in E. apply HD in Eu; auto. congruence.
Qed.
Lemma find_variant_type_iff v t k : (forall u, In u v -> D u) -> D t -> NoDup v -> find_variant_type t v = Some k <-> nth_error v k = Some t.
Proof.
  intros Hv Ht N. unfold find_variant_type. destruct (contains v t) eqn:C.
  - apply contains_in in C; auto. apply In_nth_error in C as (j & E). rewrite (matches_one _ _ _ Hv N E). cbn. split; [intros [= <-]; auto|]. intros E2. f_equal. apply (proj1 (NoDup_nth_error v) N); [apply nth_error_Some; congruence|congruence].
  - rewrite matches_none; auto; [|intros K; apply contains_in in K; auto; congruence]. cbn. split; [discriminate|]. intros K. apply nth_error_In in K. apply contains_in in K; auto. congruence.
Qed.
End Distinct.
Lemma split_filter p v1 v2 l : split p v1 v2 l = (v1 ++ filter p l, v2 ++ filter (fun t => negb (p t)) l).
Proof.
  revert v1 v2. induction l as [|t l IH]; intros v1 v2; cbn [split filter]; [now rewrite !app_nil_r|]. destruct (p t); cbn [negb]; rewrite IH, <- app_assoc; reflexivity.
Qed.

Lemma all_forall A (P : A -> Prop) l : (forall x, In x l -> P x) -> all (map P l).
Proof. intros H. induction l as [|x l IH]; cbn; auto. split; [apply H; now left|]. apply IH. intros; apply H; now right. Qed.

(** ** The types of a structure *)
Section Program.
Context (extra : nat -> list ty) (F : nat -> list (fname * ty)) (T : ty).
(** Each structure has one definition, *)
Context (HT : one_definition F T).
(** and the extra types bring no further structures. *)
Definition extras_known : Prop := forall sid fs u, part (TStruct sid fs) T -> In u (extra sid) -> forall sid' fs', part (TStruct sid' fs') u -> part (TStruct sid' fs') T.
Context (HX : extras_known).
Let V := variant_from_struct extra T.
Lemma collected_known u : In u (collect extra T) -> one_definition F u.
Proof.
  intros H. apply collect_sound in H as [H|[(sid & fs & H & X)| ->]].
  - eapply one_definition_part; eauto.
  - intros sid' fs' K. apply HT. eapply HX; eauto.
  - intros sid fs K. inversion K as [|? ? ? C]; subst. inversion C.
Qed.
Lemma V_in u : In u V <-> In u (collect extra T).
Proof.
  unfold V, variant_from_struct. rewrite (convert_in (one_definition F)); [cbn; tauto|apply same_type|intros ? []|exact collected_known].
Qed.
Lemma V_known u : In u V -> one_definition F u. Proof. rewrite V_in. apply collected_known. Qed.
Lemma V_nodup : NoDup V. Proof. apply (convert_nodup (one_definition F)); [apply same_type|intros ? []|exact collected_known|constructor]. Qed.
Lemma V_struct sid fs : In (TStruct sid fs) V <-> part (TStruct sid fs) T.
Proof.
  rewrite V_in. split; [|intros H; apply collect_part; auto]. intros H. apply collect_sound in H as [H|[(sid' & fs' & H & X)|H]]; auto; [|discriminate].
  eapply HX; eauto. apply part_self.
Qed.
Lemma field_in_V sid fs f : part (TStruct sid fs) T -> In f fs -> is_tuple (snd f) = false -> In (snd f) V.
Proof.
  intros P Hf Ht. rewrite V_in. apply (collect_trans extra (TStruct sid fs) T P); auto. cbn [collect]. right. apply in_or_app. left. apply in_concat. exists (collect extra (snd f)). split; [apply (in_map (fun f => collect extra (snd f))); auto|now apply collect_head].
Qed.
(** The two variants *)
Let Ss := fst (structs_and_fields extra T).
Let Fs := snd (structs_and_fields extra T).
Lemma Ss_eq : Ss = filter is_struct V. Proof. unfold Ss, structs_and_fields. now rewrite split_filter. Qed.
Lemma Fs_eq : Fs = filter (fun t => negb (is_struct t)) V. Proof. unfold Fs, structs_and_fields. now rewrite split_filter. Qed.
Lemma Ss_in t : In t Ss <-> In t V /\ is_struct t = true. Proof. rewrite Ss_eq. apply filter_In. Qed.
Lemma Fs_in t : In t Fs <-> In t V /\ is_struct t = false. Proof. rewrite Fs_eq, filter_In. destruct (is_struct t); cbn; intuition discriminate. Qed.
Lemma Ss_nodup : NoDup Ss. Proof. rewrite Ss_eq. apply NoDup_filter, V_nodup. Qed.
Lemma Fs_nodup : NoDup Fs. Proof. rewrite Fs_eq. apply NoDup_filter, V_nodup. Qed.
Lemma Ss_known u : In u Ss -> one_definition F u. Proof. rewrite Ss_in. intros [H _]. now apply V_known. Qed.
Lemma Fs_known u : In u Fs -> one_definition F u. Proof. rewrite Fs_in. intros [H _]. now apply V_known. Qed.
Let num := struct_number extra T.
Lemma num_nth sid fs : part (TStruct sid fs) T -> nth_error Ss (num sid fs) = Some (TStruct sid fs).
Proof.
  intros P. assert (H : In (TStruct sid fs) Ss) by (rewrite Ss_in; split; auto; now apply V_struct). apply In_nth_error in H as (k & E).
  unfold num, struct_number. fold Ss. rewrite (proj2 (find_variant_type_iff (one_definition F) (same_type F) Ss (TStruct sid fs) k Ss_known (one_definition_part F _ _ HT P) Ss_nodup)); auto.
Qed.
Definition within (t : ty) : Prop := forall sid fs, part (TStruct sid fs) t -> part (TStruct sid fs) T.
Lemma within_comp c t : within t -> component c t -> within c.
Proof. intros H C sid fs P. apply H. eapply part_of; eauto. Qed.
Lemma within_V u : In u V -> within u.
Proof.
  rewrite V_in. intros H sid fs P. apply collect_sound in H as [H|[(sid' & fs' & H & X)| ->]]; [eapply part_trans; eauto|eapply HX; eauto|]. inversion P as [|? ? ? C]; subst. inversion C.
Qed.
Lemma is_struct_numbered t : is_struct (numbered num t) = is_struct t. Proof. destruct t; reflexivity. Qed.
Lemma in_schema_numbered t : within t -> (forall u, part u t -> sane u) -> in_schema (schema_of extra T) (numbered num t).
Proof.
  assert (CW := within_comp). assert (CS : forall c t, (forall u, part u t -> sane u) -> component c t -> forall u, part u c -> sane u) by (intros c t0 H C u P; apply H; eapply part_of; eauto).
  induction t using ty_ind'; intros W Sn; assert (S0 := Sn _ (part_self _)); cbn [numbered in_schema]; cbn [sane] in S0; auto.
  - apply IHt; [apply (CW _ _ W)|apply (CS _ _ Sn)]; constructor.
  - apply IHt; [apply (CW _ _ W)|apply (CS _ _ Sn)]; constructor.
  - apply IHt; [apply (CW _ _ W)|apply (CS _ _ Sn)]; constructor.
  - apply IHt; [apply (CW _ _ W)|apply (CS _ _ Sn)]; constructor.
  - apply IHt; [apply (CW _ _ W)|apply (CS _ _ Sn)]; constructor.
  - split; [apply IHt1|apply IHt2]; try (apply (CW _ _ W); constructor); apply (CS _ _ Sn); constructor.
  - rewrite map_length. split; auto. rewrite map_map. rewrite Forall_forall in H. apply (all_forall _ (fun t => in_schema _ (numbered num t))). intros t Ht. apply H; auto; [apply (CW _ _ W)|apply (CS _ _ Sn)]; now constructor.
  - rewrite map_map. rewrite Forall_forall in H. apply (all_forall _ (fun t => in_schema _ (numbered num t))). intros t Ht. apply H; auto; [apply (CW _ _ W)|apply (CS _ _ Sn)]; now constructor.
  - rewrite map_map. cbn [fst snd]. split.
    + cbn [schema_of structs]. rewrite nth_error_map. fold Ss. rewrite num_nth by (apply W, part_self). reflexivity.
    + rewrite Forall_forall in H. apply (all_forall _ (fun f => in_schema _ (numbered num (snd f)))). intros f Hf. apply H; auto; [apply (CW _ _ W)|apply (CS _ _ Sn)]; now constructor.
Qed.
Lemma schema_closed : no_tuple_fields T -> closed (schema_of extra T).
Proof.
  intros NT fs f Hfs Hf Hs. cbn [schema_of structs ftypes] in *. fold Ss in Hfs. fold num in Hfs. fold num. apply in_map_iff in Hfs as (t & <- & Ht).
  apply Ss_in in Ht as [HV Hst]. destruct t as [| | | | | | | | | | | | |sid fs]; try discriminate. apply V_struct in HV. cbn [numbered fields_of] in Hf. apply in_map_iff in Hf as (g & <- & Hg). cbn [snd] in *.
  fold Fs. apply in_map. rewrite Fs_in. rewrite is_struct_numbered in Hs. split; auto. eapply field_in_V; eauto.
Qed.
(** The numbers tell the same types apart as the structures themselves. *)
Lemma ty_eqb_numbered a : forall b, within a -> within b -> ty_eqb (numbered num a) (numbered num b) = ty_eqb a b.
Proof.
  assert (CW := within_comp).
  assert (L : forall ts us, Forall (fun a => forall b, within a -> within b -> ty_eqb (numbered num a) (numbered num b) = ty_eqb a b) ts -> (forall t, In t ts -> within t) -> (forall t, In t us -> within t) ->
    (fix list_eqb l m := match l, m with [], [] => true | x :: l, y :: m => ty_eqb x y && list_eqb l m | _, _ => false end) (map (numbered num) ts) (map (numbered num) us) =
    (fix list_eqb l m := match l, m with [], [] => true | x :: l, y :: m => ty_eqb x y && list_eqb l m | _, _ => false end) ts us).
  { intros ts us H. revert us. induction H as [|t ts Ht Hts IH]; intros [|u us] H1 H2; cbn [map]; auto. rewrite Ht, IH; auto; intros; first [apply H1; cbn; solve [auto] | apply H2; cbn; solve [auto]]. }
  induction a using ty_ind'; intros b Wa Wb; destruct b; cbn [numbered ty_eqb]; auto;
    try (rewrite IHa; auto; [apply (CW _ _ Wa)|apply (CW _ _ Wb)]; constructor).
  - rewrite IHa1, IHa2; auto; first [apply (CW _ _ Wa); solve [constructor] | apply (CW _ _ Wb); solve [constructor]].
  - apply L; auto; intros; [apply (CW _ _ Wa)|apply (CW _ _ Wb)]; now constructor.
  - apply L; auto; intros; [apply (CW _ _ Wa)|apply (CW _ _ Wb)]; now constructor.
  - match goal with Wa : within (TStruct ?s ?fs), Wb : within (TStruct ?s' ?fs') |- _ => assert (Pa := Wa s fs (part_self _)); assert (Pb := Wb s' fs' (part_self _)); assert (Ea := num_nth _ _ Pa); assert (Eb := num_nth _ _ Pb);
      destruct (Nat.eqb s s') eqn:E; [apply Nat.eqb_eq in E; subst s'; assert (X : fs = fs') by (rewrite (HT _ _ Pa), (HT _ _ Pb); reflexivity); rewrite X; apply Nat.eqb_refl|];
      apply Nat.eqb_neq; intros K; rewrite K in Ea; rewrite Ea in Eb; injection Eb as Eb _; apply Nat.eqb_neq in E; contradiction end.
Qed.
Lemma find_first_numbered u l : within u -> (forall t, In t l -> within t) -> find_first (ty_eqb (numbered num u)) (map (numbered num) l) = find_first (ty_eqb u) l.
Proof.
  intros Hu. induction l as [|t l IH]; intros Hl; auto. cbn [map]. cbn [find_first]. rewrite ty_eqb_numbered by (auto; apply Hl; now left). rewrite IH by (intros; apply Hl; now right). reflexivity.
Qed.
Lemma find_first_unique u l k : (forall t, In t l -> one_definition F t) -> one_definition F u -> NoDup l -> nth_error l k = Some u -> find_first (ty_eqb u) l = Some k.
Proof.
  intros Hl Hu. revert k. induction l as [|t l IH]; intros k N E; [destruct k; discriminate|]. cbn [find_first]. inversion N as [|? ? Hn N']; subst. destruct k as [|k]; cbn in E.
  - injection E as ->. now rewrite ty_eqb_refl.
  - destruct (ty_eqb u t) eqn:Et; [|rewrite (IH (fun t H => Hl t (or_intror H)) k N' E); reflexivity]. apply (same_type F) in Et; auto; [|apply Hl; now left]. subst t. apply nth_error_In in E. contradiction.
Qed.
Lemma field_type_found u k : nth_error Fs k = Some u -> field_type (schema_of extra T) (numbered num u) = Some k /\ find_variant_type u Fs = Some k.
Proof.
  intros E. assert (Hin := nth_error_In _ _ E). split.
  - assert (Hn : is_struct u = false) by (apply Fs_in in Hin; tauto). replace (field_type (schema_of extra T) (numbered num u)) with (find_first (ty_eqb (numbered num u)) (ftypes (schema_of extra T))) by (destruct u; try discriminate; reflexivity).
    cbn [schema_of ftypes]. fold Fs. fold num. rewrite find_first_numbered.
    + apply find_first_unique; auto using Fs_known, Fs_nodup.
    + apply within_V. now apply Fs_in.
    + intros t Ht. apply within_V. now apply Fs_in.
  - apply (find_variant_type_iff (one_definition F) (same_type F)); auto using Fs_known, Fs_nodup.
Qed.
End Program.

(** ** C68 *)
(** A structure written in the version tolerant format: everything it is made of is in the
    variant, apart from tuples and from the arithmetic elements of vectors and arrays, *)
Theorem types_complete extra F T : one_definition F T -> extras_known extra T ->
  (forall u, part u T -> is_tuple u = false -> arithmetic u = false -> In u (variant_from_struct extra T)) /\
  (forall sid fs f, part (TStruct sid fs) T -> In f fs -> is_tuple (snd f) = false -> In (snd f) (variant_from_struct extra T)) /\
  (forall sid fs u, part (TStruct sid fs) T -> In u (extra sid) -> In u (variant_from_struct extra T)).
Proof.
  intros HT HX. repeat split.
  - intros u P Ht Ha. apply (V_in extra F); auto. now apply collect_part.
  - intros. eapply (field_in_V extra F); eauto.
  - intros sid fs u P Hu. apply (V_in extra F); auto. apply (collect_trans extra (TStruct sid fs) T P); auto. cbn [collect]. right. apply in_or_app. now right.
Qed.
(** nothing else is, and nothing twice: find_variant_type_v succeeds with the only index. *)
Theorem types_minimal extra F T : one_definition F T -> extras_known extra T ->
  (forall u, In u (variant_from_struct extra T) -> part u T \/ (exists sid fs, part (TStruct sid fs) T /\ In u (extra sid)) \/ u = TInt true 8) /\
  NoDup (variant_from_struct extra T) /\
  (forall u k, In u (variant_from_struct extra T) -> find_variant_type u (variant_from_struct extra T) = Some k <-> nth_error (variant_from_struct extra T) k = Some u) /\
  (forall u, one_definition F u -> find_variant_type u (variant_from_struct extra T) = None <-> ~ In u (variant_from_struct extra T)).
Proof.
  intros HT HX. assert (K := V_known extra F T HT HX). assert (N := V_nodup extra F T HT HX).
  assert (I := fun u k Hu => find_variant_type_iff (one_definition F) (same_type F) (variant_from_struct extra T) u k K Hu N). repeat split; auto.
  - intros u H. apply (V_in extra F) in H; auto. now apply collect_sound.
  - apply I. now apply K.
  - apply I. now apply K.
  - intros E Hin. apply In_nth_error in Hin as (k & Hk). apply (I u k) in Hk; auto. congruence.
  - intros Hn. destruct (find_variant_type u (variant_from_struct extra T)) as [k|] eqn:E; auto. apply I in E; auto. apply nth_error_In in E. contradiction.
Qed.
(** The variant splits into the structures and the types of their fields, which is a program
    that the reader and the writer (C35) can work with: what their theorems assume follows
    from the construction. *)
Theorem types_program extra F T : one_definition F T -> extras_known extra T -> no_tuple_fields T ->
  let P := schema_of extra T in let num := struct_number extra T in
  closed P /\
  (forall t, (forall u, part u t -> sane u) -> part t T -> in_schema P (numbered num t)) /\
  (forall t, (forall u, In u (variant_from_struct extra T) -> forall w, part w u -> sane w) -> In t (ftypes P) -> in_schema P t) /\
  (forall sid fs, part (TStruct sid fs) T -> find_variant_type (TStruct sid fs) (fst (structs_and_fields extra T)) = Some (num sid fs)) /\
  (forall u k, nth_error (snd (structs_and_fields extra T)) k = Some u -> field_type P (numbered num u) = Some k /\ find_variant_type u (snd (structs_and_fields extra T)) = Some k).
Proof.
  intros HT HX NT P num. repeat split.
  - now apply (schema_closed extra F).
  - intros t Hs Ht. apply (in_schema_numbered extra F); auto. intros sid fs Q. eapply part_trans; eauto.
  - intros t Hs Ht. cbn [P schema_of ftypes] in Ht. apply in_map_iff in Ht as (u & <- & Hu). apply Fs_in in Hu as [Hu _].
    apply (in_schema_numbered extra F); auto; [eapply within_V; eauto|]. now apply Hs.
  - intros sid fs Q. assert (E := num_nth extra F T HT HX sid fs Q). apply (find_variant_type_iff (one_definition F) (same_type F)); auto.
    + apply (Ss_known extra F); auto.
    + eapply one_definition_part; eauto.
    + apply (Ss_nodup extra F); auto.
  - now apply (field_type_found extra F T HT HX).
  - now apply (field_type_found extra F T HT HX).
Qed.
(** But extra types are added as they are: a structure among them comes without the types of
    its fields, and the program is not complete (find_variant_type_v does not compile). *)
Theorem types_extra_refuted : exists extra T sid fs f, (exists s l, part (TStruct s l) T /\ In (TStruct sid fs) (extra s)) /\
  In f fs /\ is_tuple (snd f) = false /\ find_variant_type (snd f) (variant_from_struct extra T) = None /\ ~ closed (schema_of extra T).
Proof.
  set (inner := TStruct 1 [([98%Z], TStr 1)]). exists (fun s => match s with O => [inner] | _ => [] end), (TStruct 0 [([97%Z], TInt true 4)]), 1%nat, [([98%Z], TStr 1)], ([98%Z], TStr 1).
  split; [exists O, [([97%Z], TInt true 4)]; split; [apply part_self|now left]|]. split; [now left|]. split; auto. split; auto.
  intros C. specialize (C [([98%Z], TStr 1)] ([98%Z], TStr 1) ltac:(cbn; auto) ltac:(now left) eq_refl). cbn in C. intuition discriminate.
Qed.
(** A tuple itself is not in the variant: a structure with such a field has no prototype. *)
Theorem types_tuple_refuted : exists T sid fs f, part (TStruct sid fs) T /\ In f fs /\ is_struct (snd f) = false /\
  find_variant_type (snd f) (variant_from_struct (fun _ => []) T) = None /\ ~ closed (schema_of (fun _ => []) T).
Proof.
  exists (TStruct 0 [([97%Z], TTuple [TInt true 4; TBool])]), O, [([97%Z], TTuple [TInt true 4; TBool])], ([97%Z], TTuple [TInt true 4; TBool]).
  split; [apply part_self|]. split; [now left|]. split; auto. split; auto.
  intros C. specialize (C [([97%Z], TTuple [TInt true 4; TBool])] ([97%Z], TTuple [TInt true 4; TBool]) ltac:(cbn; auto) ltac:(now left) eq_refl). cbn in C. intuition discriminate.
Qed.

(** ** C69 *)
(** The fields of a structure, with those of nested structures in place of them *)
Inductive leaves : ty -> list ty -> Prop :=
| lv_leaf t : is_struct t = false -> leaves t [t]
| lv_struct sid fs l : field_leaves fs l -> leaves (TStruct sid fs) l
with field_leaves : list (fname * ty) -> list ty -> Prop :=
| lv_nil : field_leaves [] []
| lv_cons f fs l m : leaves (snd f) l -> field_leaves fs m -> field_leaves (f :: fs) (l ++ m).
Lemma leaves_count t : forall l, leaves t l -> countof_fields t = length l.
Proof.
  induction t using ty_ind'; intros l L; inversion L; subst; try reflexivity; try discriminate. cbn [countof_fields].
  match goal with H : field_leaves _ _ |- _ => rename H into FL end. clear L. revert l FL. induction H as [|f fs Hf Hfs IH]; intros l FL; inversion FL; subst; cbn [fold_right]; auto.
  rewrite app_length, (Hf l0) by auto. f_equal. now apply IH.
Qed.
Lemma find_first_app A (p : A -> bool) l m : find_first p (l ++ m) = match find_first p l with Some k => Some k | None => match find_first p m with Some k => Some (length l + k)%nat | None => None end end.
Proof. induction l as [|x l IH]; cbn [app find_first length]; [destruct (find_first p m); reflexivity|]. destruct (p x); auto. rewrite IH. destruct (find_first p l); auto. destruct (find_first p m); auto. Qed.
Lemma leaves_index field t : forall l, leaves t l -> indexof_type field t = find_first (ty_eqb field) l.
Proof.
  induction t using ty_ind'; intros l L; inversion L; subst; try discriminate; try (cbn [indexof_type find_first]; destruct (ty_eqb field _); reflexivity). cbn [indexof_type].
  match goal with H : field_leaves _ _ |- _ => rename H into FL end. clear L.
  enough (G : forall pred, (fix go (l : list (fname * ty)) (pred : nat) : option nat := match l with [] => None | f :: r => match indexof_type field (snd f) with Some local => Some (pred + local)%nat | None => go r (pred + countof_fields (snd f))%nat end end) fs pred
    = match find_first (ty_eqb field) l with Some k => Some (pred + k)%nat | None => None end) by (rewrite G; destruct (find_first _ l); reflexivity).
  revert l FL. induction H as [|f fs Hf Hfs IH]; intros l FL pred; inversion FL; subst; auto.
  match goal with L1 : leaves (snd f) ?x, L2 : field_leaves fs ?y |- _ => rewrite (Hf x L1), find_first_app; destruct (find_first (ty_eqb field) x) eqn:E; auto; rewrite (IH y L2), (leaves_count _ x L1); destruct (find_first (ty_eqb field) y); auto; f_equal; lia end.
Qed.
Lemma find_first_iff A (p : A -> bool) l k : find_first p l = Some k <-> (exists x, nth_error l k = Some x /\ p x = true) /\ forall j y, (j < k)%nat -> nth_error l j = Some y -> p y = false.
Proof.
  revert k. induction l as [|x l IH]; intros k; cbn [find_first].
  - split; [discriminate|]. intros [(y & E & _) _]. destruct k; discriminate.
  - destruct (p x) eqn:Ep.
    + split; [intros [= <-]; split; [exists x; auto|intros; lia]|]. intros [_ H]. destruct k; auto. specialize (H O x ltac:(lia) eq_refl). congruence.
    + destruct k as [|k]; [split; [destruct (find_first p l); discriminate|intros [(y & [= <-] & E) _]; congruence]|].
      destruct (find_first p l) as [j|] eqn:Ef.
      * split.
        -- intros [= ->]. destruct (proj1 (IH k) eq_refl) as [H1 H2]. split; auto. intros [|j] y Hj E; [injection E as <-; auto|]. apply (H2 j); auto. lia.
        -- intros [H1 H2]. assert (Some j = Some k) as X; [|injection X as ->; reflexivity]. apply IH. split; auto. intros i y Hi E. apply (H2 (S i)); auto. lia.
      * split; [discriminate|]. intros [H1 H2]. enough (None = Some k) by discriminate. apply IH. split; auto. intros i y Hi E. apply (H2 (S i)); auto. lia.
Qed.
(** countof_fields is the number of the fields of a structure, counted through nested
    structures, and indexof_type the number of the first of them that has the type. *)
Theorem type_index F field t l : one_definition F t -> one_definition F field -> leaves t l ->
  countof_fields t = length l /\
  (forall k, indexof_type field t = Some k <-> nth_error l k = Some field /\ forall j, (j < k)%nat -> nth_error l j <> Some field) /\
  (indexof_type field t = None <-> ~ In field l).
Proof.
  intros Ht Hf L. assert (K : forall u, In u l -> one_definition F u).
  { intros u Hu. enough (P : part u t) by exact (one_definition_part F u t Ht P). clear - L Hu. revert l L u Hu. induction t using ty_ind'; intros l L u Hu; inversion L; subst; try (destruct Hu as [<-|[]]; apply part_self).
    match goal with H : field_leaves _ _ |- _ => rename H into FL end. clear L. enough (exists f, In f fs /\ part u (snd f)) as (f & Hin & P) by (eapply part_of; [apply c_field; eauto|auto]).
    revert l FL Hu. induction H as [|f fs Hf Hfs IH]; intros l FL Hu; inversion FL; subst; [contradiction|]. apply in_app_or in Hu as [Hu|Hu]; [exists f; split; [now left|eapply Hf; eauto]|]. edestruct IH as (g & Hg & P); eauto. exists g. split; auto. now right. }
  assert (Q : forall k, indexof_type field t = Some k <-> nth_error l k = Some field /\ forall j, (j < k)%nat -> nth_error l j <> Some field).
  { intros k. rewrite (leaves_index field t l L), find_first_iff. split.
    - intros [(x & E & Ex) H]. apply (same_type F) in Ex; auto; [|apply K; eapply nth_error_In; eauto]. subst x. split; auto. intros j Hj Ej. specialize (H j field Hj Ej). rewrite ty_eqb_refl in H. discriminate.
    - intros [E H]. split; [exists field; split; auto using ty_eqb_refl|]. intros j y Hj Ej. destruct (ty_eqb field y) eqn:Ey; auto. apply (same_type F) in Ey; auto; [|apply K; eapply nth_error_In; eauto]. subst y. exfalso. eapply H; eauto. }
  split; [now apply leaves_count|]. split; auto. split.
  - intros E Hin. apply In_nth_error in Hin as (k & Ek). rewrite (leaves_index field t l L) in E. clear - E Ek. revert k Ek. induction l as [|x l IH]; intros [|k] Ek; try discriminate; cbn in Ek, E.
    + injection Ek as ->. rewrite ty_eqb_refl in E. discriminate.
    + destruct (ty_eqb field x); try discriminate. destruct (find_first (ty_eqb field) l) eqn:E2; try discriminate. eapply IH; eauto.
  - intros Hn. destruct (indexof_type field t) as [k|] eqn:E; auto. destruct (proj1 (Q k) eq_refl) as [E2 _]. clear E. rename E2 into E. apply nth_error_In in E. contradiction.
Qed.
(** Every structure of the model has leaves. *)
Lemma leaves_exist t : exists l, leaves t l.
Proof.
  induction t using ty_ind'; try (eexists; apply lv_leaf; reflexivity). enough (exists l, field_leaves fs l) as (l & L) by (exists l; now constructor).
  induction H as [|f fs (l & Hl) Hfs (m & Hm)]; eexists; econstructor; eauto.
Qed.

(** ** Examples *)
(** struct Point { int x; int y; }; struct Shape { std::string name; std::vector<Point> points; std::vector<int> ids; Point center; std::optional<int> color; } *)
Definition point_ty := TStruct 7 [([120%Z], TInt true 4); ([121%Z], TInt true 4)].
Definition shape_ty := TStruct 3 [([110%Z], TStr 1); ([112%Z], TVec point_ty); ([105%Z], TVec (TInt false 8)); ([99%Z], point_ty); ([111%Z], TOpt (TInt true 4))].
Example types_demo : variant_from_struct (fun _ => []) shape_ty = [shape_ty; TStr 1; TVec point_ty; point_ty; TInt true 4; TVec (TInt false 8); TOpt (TInt true 4)] /\
  fst (structs_and_fields (fun _ => []) shape_ty) = [shape_ty; point_ty] /\ find_variant_type point_ty (variant_from_struct (fun _ => []) shape_ty) = Some 3%nat /\
  find_variant_type (TInt false 8) (variant_from_struct (fun _ => []) shape_ty) = None.
Proof. repeat split. Qed.
Example types_demo_definition : one_definition (fun sid => match sid with 3 => fields_of shape_ty | 7 => fields_of point_ty | _ => [] end)%nat shape_ty /\ extras_known (fun _ => []) shape_ty /\ no_tuple_fields shape_ty.
Proof.
  assert (A : forall u, part u shape_ty -> In u [shape_ty; TStr 1; TVec point_ty; point_ty; TInt true 4; TVec (TInt false 8); TInt false 8; TOpt (TInt true 4)]).
  { assert (G : forall u c, part u c -> In c [shape_ty; TStr 1; TVec point_ty; point_ty; TInt true 4; TVec (TInt false 8); TInt false 8; TOpt (TInt true 4)] -> In u [shape_ty; TStr 1; TVec point_ty; point_ty; TInt true 4; TVec (TInt false 8); TInt false 8; TOpt (TInt true 4)]).
    { induction 1 as [|u c t C P IH]; auto. intros H. apply IH. clear - C H. cbn [In] in H. repeat destruct H as [<-|H]; try contradiction; inversion C; subst; cbn in *; try match goal with H : _ \/ _ |- _ => repeat destruct H as [<-|H] end; cbn; auto 12; contradiction. }
    intros u P. eapply G; eauto. now left. }
  split; [|split].
  - intros sid fs P. apply A in P. cbn in P. repeat destruct P as [P|P]; try discriminate P; try contradiction; injection P as <- <-; reflexivity.
  - intros sid fs u _ [].
  - intros sid fs f P Hf. apply A in P. cbn in P. repeat destruct P as [P|P]; try discriminate P; try contradiction; injection P as <- <-; cbn in Hf; repeat destruct Hf as [<-|Hf]; try contradiction; reflexivity.
Qed.
Example type_index_demo : countof_fields shape_ty = 6%nat /\ indexof_type (TOpt (TInt true 4)) shape_ty = Some 5%nat /\ indexof_type (TInt true 4) shape_ty = Some 3%nat /\ indexof_type point_ty shape_ty = None.
Proof. repeat split. Qed.
