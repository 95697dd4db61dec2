(** The header, and which values can be migrated. *)
From Coq Require Import ZifyBool ZifyNat.
From Verif Require Import Common Int2ArrayModel Int2ArrayProps CodecModel CodecSpec CodecProofs CodecLocal CodecProps VtsModel VtsSpec VtsProofs.
Local Open Scope Z_scope.

(** ** The header *)
Section Header.
Context (E : env) (O N : schema) (type_map : fname -> fname).

Lemma mapM_ok {A B} (g : A -> res B) h l : (forall x, In x l -> g x = Ok (h x)) -> mapM g l = Ok (map h l).
Proof. induction l as [|x l IH]; intros H; [reflexivity|]. cbn [mapM map]. rewrite (H x (or_introl eq_refl)). cbn [rbind]. rewrite IH; [reflexivity|]. intros; apply H. now right. Qed.
Lemma put_list_ok {A} (g : A -> val) (w : writer) (h : A -> bytes) l : (forall x, In x l -> w (g x) = Ok (h x)) -> put_list w (map g l) = Ok (concat (map h l)).
Proof. induction l as [|x l IH]; intros H; [reflexivity|]. cbn [put_list map concat]. rewrite (H x (or_introl eq_refl)). cbn [rbind]. rewrite IH; [reflexivity|]. intros; apply H. now right. Qed.

Lemma header_bytes : has_ty E meta_ty (meta_val O) -> exists h, write_protos E O = Ok h /\ pwrite E meta_ty (meta_val O) = Ok h.
Proof.
  clear type_map. intros H. destruct (codec_write_total E meta_ty _ H) as (h & W & _). exists h. split; auto. rewrite <- W.
  unfold write_protos, pwrite, meta_ty, meta_val. cbn [write map put_each]. 
  assert (HF : Forall (has_ty E (TTuple [TVec (TTuple [TStr 1; TInt false 8])]))
                 (map (fun fs => VTup [VList (map (fun f => VTup [VStr (fst f); VInt (type_code (field_type O (snd f)))]) fs)]) (structs O))) by (destruct H as (_ & (HF & _) & _); exact HF).
  match goal with |- rbind ?X _ = _ => destruct X as [tm| |] end; cbn [rbind]; try reflexivity.
  cbn [put_elems].
  rewrite (put_list_ok (fun fs => VTup [VList (map (fun f => VTup [VStr (fst f); VInt (type_code (field_type O (snd f)))]) fs)]) _ (fun fs => write_proto (new_proto O fs))).
  - cbn [rbind]. now rewrite !map_length, app_nil_r.
  - intros fs Hfs. cbn [put_each map write put_elems].
    assert (HP : has_ty E (TTuple [TVec (TTuple [TStr 1; TInt false 8])]) (VTup [VList (map (fun f => VTup [VStr (fst f); VInt (type_code (field_type O (snd f)))]) fs)])).
    { rewrite Forall_forall in HF. apply HF. now apply (in_map (fun fs => VTup [VList (map (fun f => VTup [VStr (fst f); VInt (type_code (field_type O (snd f)))]) fs)])). }
    assert (HP' : Forall (has_ty E (TTuple [TStr 1; TInt false 8])) (map (fun f => VTup [VStr (fst f); VInt (type_code (field_type O (snd f)))]) fs))
      by (destruct HP as ((HP & _) & _); exact HP). clear HP. rename HP' into HP. rewrite Forall_forall in HP.
    rewrite (put_list_ok (fun f => VTup [VStr (fst f); VInt (type_code (field_type O (snd f)))]) _
       (fun f => put_size (length (fst f)) ++ concat (map (put_int 1) (fst f)) ++ put_int 8 (type_code (field_type O (snd f))))).
    + cbn [rbind]. rewrite map_length, !app_nil_r. unfold write_proto, new_proto. rewrite map_length, map_map. reflexivity.
    + intros f Hf. cbn [put_each map write]. specialize (HP _ (in_map (fun f => VTup [VStr (fst f); VInt (type_code (field_type O (snd f)))]) _ _ Hf)).
      cbn [has_ty each map] in HP. destruct HP as ((_ & _ & HL) & _).
      replace (over_limit E (Z.of_nat (length (fst f)) * Z.of_nat 1)) with false by (unfold over_limit; destruct (limit E); lia). cbn [rbind].
      now rewrite app_nil_r, <- app_assoc.
Qed.

Lemma attach_one (HclO : closed O) (Hi : indexable O) fs f : In fs (structs O) -> In f fs ->
  attach_field N (map type_map (map type_name (ftypes O))) (fst f, type_code (field_type O (snd f))) =
  if is_struct (snd f) then Ok (fst f, None) else match known_type N type_map (snd f) with Some k => Ok (fst f, Some k) | None => Throw TypeMismatch end.
Proof.
  intros H1 H2. unfold attach_field. destruct (is_struct (snd f)) eqn:Es.
  - destruct (snd f); try discriminate. reflexivity.
  - destruct (field_type_known O HclO fs f H1 H2 Es) as [k Hk]. rewrite Hk. cbn [type_code]. apply name_new in Hk as (u & Hu & Nu).
    assert (Lk : (k < length (ftypes O))%nat) by (apply nth_error_Some; congruence). destruct Hi as [_ Hi].
    replace (Z.of_nat k =? no_type) with false by (unfold no_type; lia). rewrite !map_length. replace (Z.of_nat (length (ftypes O)) <=? Z.of_nat k) with false by lia.
    rewrite Nat2Z.id. replace (nth k (map type_map (map type_name (ftypes O))) []) with (type_map (type_name (snd f))).
    2:{ symmetry. apply nth_error_nth. rewrite !nth_error_map, Hu. cbn [option_map]. now rewrite Nu. }
    reflexivity.
Qed.
Lemma meta_contents : meta_names (meta_val O) = map type_name (ftypes O) /\
  meta_protos (meta_val O) = map (map (fun f => (fst f, type_code (field_type O (snd f))))) (structs O).
Proof. unfold meta_names, meta_protos, meta_val. rewrite !map_map. split; [reflexivity|]. apply map_ext. intros fs. now rewrite map_map. Qed.

Lemma read_header h rest : program E O -> write_protos E O = Ok h ->
  read_protos get_raw E N type_map (h ++ rest) = let* ps := attach N (map type_map (map type_name (ftypes O))) (map (map (fun f => (fst f, type_code (field_type O (snd f))))) (structs O)) in Ok (ps, rest).
Proof.
  intros (_ & _ & HM) W. destruct (header_bytes HM) as (h' & W' & P). rewrite W' in W. apply ok_inj in W. subst h'.
  assert (Hw : wf_ty E meta_ty) by (cbn; repeat split; lia).
  unfold read_protos. change (read E get_raw plain_struct) with (pread E). rewrite (codec_round_trip E meta_ty (meta_val O) (default E meta_ty) h rest Hw HM (fresh_default E meta_ty Hw) P).
  cbn [rbind]. destruct meta_contents as [-> ->]. reflexivity.
Qed.
Lemma mapM_map {A B C} (h : A -> B) (g : B -> res C) l : mapM g (map h l) = mapM (fun x => g (h x)) l.
Proof. induction l as [|x l IH]; [reflexivity|]. cbn [mapM map]. now rewrite IH. Qed.
Lemma attach_known : closed O -> indexable O -> known_types O N type_map ->
  attach N (map type_map (map type_name (ftypes O))) (map (map (fun f => (fst f, type_code (field_type O (snd f))))) (structs O)) = Ok (old_protos O N type_map).
Proof.
  intros HclO Hi HK. unfold attach. rewrite mapM_map. apply mapM_ok. intros fs Hfs. rewrite mapM_map. apply mapM_ok. intros f Hf.
  rewrite (attach_one HclO Hi fs f Hfs Hf). unfold old_field. destruct (is_struct (snd f)) eqn:Es; [reflexivity|].
  pose proof (HK fs f Hfs Hf Es). destruct (known_type N type_map (snd f)); congruence.
Qed.
(** Either all types are known, or the header is rejected. *)
Lemma mapM_or {A B} (g : A -> res B) e l : (forall x, In x l -> (exists y, g x = Ok y) \/ g x = Throw e) -> (exists m, mapM g l = Ok m) \/ mapM g l = Throw e.
Proof.
  induction l as [|x l IH]; intros H; [left; eexists; reflexivity|]. cbn [mapM]. destruct (H x (or_introl eq_refl)) as [[y Hy]| ->]; [|now right].
  rewrite Hy. cbn [rbind]. destruct IH as [[m ->]| ->]; [intros; apply H; now right|left; eexists; reflexivity|now right].
Qed.
Lemma mapM_all {A B} (g : A -> res B) l m : mapM g l = Ok m -> forall x, In x l -> exists y, g x = Ok y.
Proof.
  revert m. induction l as [|x l IH]; intros m H y Hy; [destruct Hy|]. cbn [mapM] in H. destruct (g x) as [a| |] eqn:Ga; cbn [rbind] in H; try discriminate.
  destruct (mapM g l) as [ys| |] eqn:Gl; cbn [rbind] in H; try discriminate. destruct Hy as [<-|Hy]; eauto.
Qed.
Lemma attach_unknown : closed O -> indexable O ->
  known_types O N type_map \/ attach N (map type_map (map type_name (ftypes O))) (map (map (fun f => (fst f, type_code (field_type O (snd f))))) (structs O)) = Throw TypeMismatch.
Proof.
  intros HclO Hi. unfold attach. rewrite mapM_map.
  assert (K : forall fs, In fs (structs O) -> (exists m, mapM (attach_field N (map type_map (map type_name (ftypes O)))) (map (fun f => (fst f, type_code (field_type O (snd f)))) fs) = Ok m) \/
                                              mapM (attach_field N (map type_map (map type_name (ftypes O)))) (map (fun f => (fst f, type_code (field_type O (snd f)))) fs) = Throw TypeMismatch).
  { intros fs Hfs. rewrite mapM_map. apply mapM_or. intros f Hf. rewrite (attach_one HclO Hi fs f Hfs Hf).
    destruct (is_struct (snd f)); [eauto|]. destruct (known_type N type_map (snd f)); eauto. }
  destruct (mapM_or _ TypeMismatch (structs O) K) as [[m Hm]|]; [|now right]. left. intros fs f Hfs Hf Es HN.
  destruct (mapM_all _ _ _ Hm fs Hfs) as [y Hy]. rewrite mapM_map in Hy. destruct (mapM_all _ _ _ Hy f Hf) as [z Hz].
  rewrite (attach_one HclO Hi fs f Hfs Hf), Es, HN in Hz. discriminate.
Qed.
End Header.

Theorem vread_vwrite E O N rename type_map rho t1 v1 t2 d v2 bs rest : program E O -> closed N -> known_types O N type_map -> in_schema O t1 ->
  mig E N rename type_map rho t1 v1 (Some (t2, d, v2)) -> vwrite E O t1 v1 = Ok bs -> vread E N rename type_map true t2 d (bs ++ rest) = Ok (v2, rest).
Proof.
  intros HP HclN HK HI HM W. unfold vwrite in W. destruct (write_protos E O) as [h| |] eqn:Eh; cbn [rbind] in W; try discriminate.
  destruct (write E struct_index t1 v1) as [b| |] eqn:Eb; cbn [rbind] in W; try discriminate. apply ok_inj in W; subst bs.
  unfold vread, vread_from. rewrite <- app_assoc, (read_header E O N type_map h (b ++ rest) HP Eh). destruct HP as (HclO & Hi & _).
  rewrite attach_known by auto. cbn [rbind].
  destruct (reads_ok E O N rename type_map rho Hi HclN HK t1 HI) as [R _].
  destruct (R v1 t2 d v2 b (length (b ++ rest)) HM Eb rest (fun _ => None)) as (c' & _ & Q); [intros i; now left|lia|].
  unfold vreadv. rewrite Q. reflexivity.
Qed.

(** ** Which values can be migrated *)
Section Evolve.
Context (E : env) (N : schema) (rename : nat -> fname -> fname) (type_map : fname -> fname) (rho : nat -> nat).
Notation mig := (mig E N rename type_map rho). Notation unchanged := (unchanged N rename type_map rho). Notation evolves := (evolves N rename type_map rho).

Lemma all2_refl {A} (P : A -> A -> Prop) l : (forall x, In x l -> P x x) -> all2 P l l.
Proof. induction l as [|x l IH]; intros H; [exact I|]. split; [apply H; now left|]. apply IH. intros; apply H; now right. Qed.
Lemma index_of_nth fs : NoDup (map fst fs) -> forall j f, nth_error fs j = Some f -> index_of (fst f) fs = Some j.
Proof.
  induction fs as [|g fs IH]; intros ND [|j] f H; cbn in H; try discriminate; unfold index_of; cbn [find_first].
  - injection H as ->. replace (fname_eqb (fst f) (fst f)) with true by (symmetry; now apply fname_eqb_eq). reflexivity.
  - inversion ND; subst. destruct (fname_eqb (fst g) (fst f)) eqn:Q.
    + apply fname_eqb_eq in Q. exfalso. apply H2. rewrite Q. apply in_map. eapply nth_error_In; eauto.
    + fold (index_of (fst f) fs). rewrite (IH H3 j f H). reflexivity.
Qed.
Lemma each_nth ps l j p v : each ps l -> nth_error ps j = Some p -> nth_error l j = Some v -> p v.
Proof. revert l j. induction ps as [|q ps IH]; intros [|w l] [|j] H1 H2 H3; cbn in *; try discriminate; try tauto; destruct H1; [congruence|eauto]. Qed.
(** The [fields] part of mig *)
Lemma fields_nth (P : fname * ty -> val -> Prop) fs : forall l, length l = length fs -> (forall j f x, nth_error fs j = Some f -> nth_error l j = Some x -> P f x) ->
  (fix fields (fs : list (fname * ty)) (l : list val) : Prop := match fs, l with [], [] => True | f :: fs, x :: l => P f x /\ fields fs l | _, _ => False end) fs l.
Proof.
  induction fs as [|f fs IH]; intros [|x l] L H; try discriminate; [exact I|]. split; [apply (H 0%nat); reflexivity|]. apply IH; [now injection L|].
  intros j g y Hg Hy. apply (H (S j)); auto.
Qed.

Theorem mig_unchanged t : unchanged t -> in_schema N t -> (forall sid fs, nth_error (structs N) sid = Some fs -> each (map (fun f => blank (snd f)) fs) (init E sid)) ->
  forall v d, has_ty E t v -> blank t d -> mig t v (Some (t, d, v)).
Proof.
  intros HU HI Hinit. revert HU HI.
  assert (BD : forall t, in_schema N t -> blank t (default E t)).
  { induction t0 using ty_ind'; cbn [in_schema blank default as_list]; auto.
    - intros Hi. rewrite repeat_length. split; auto. apply Forall_forall. intros x Hx. apply repeat_spec in Hx. subst. auto.
    - intros Hi. induction H as [|u us Hu Hus IH]; cbn in *; [exact I|]. destruct Hi. split; auto.
    - intros [Hi _]. auto. }
  induction t using ty_ind'; intros HU HI v d HT HB; cbn [VtsSpec.unchanged in_schema] in *.
  1-5: split; auto.
  - cbn in HB. subst d. split; auto. destruct v; cbn in HT; try contradiction; auto.
  - destruct v; cbn in HT; try contradiction. destruct HT as [L HT]. destruct HB as [LB HB]. cbn [VtsSpec.mig]. split; auto.
    revert LB HB HT. generalize (as_list d) as ds. intros ds LB HB HT. assert (L2 : length ds = length l) by congruence. clear LB L. revert ds L2 HB.
    induction HT as [|x l Hx Hl IHl]; intros [|y ds] L2 HB; try discriminate; cbn [all3]; auto. inversion HB; subst. split; [auto|]. apply IHl; auto.
  - destruct v; cbn in HT; try contradiction. destruct HT as [HT HF]. cbn [VtsSpec.mig]. split; auto. split; auto. apply all2_refl. intros x Hx. rewrite Forall_forall in HT. auto.
  - destruct v; cbn in HT; try contradiction. destruct HT as (HT & HS & HC). cbn [VtsSpec.mig]. repeat (split; [auto; fail|]). apply all2_refl. intros x Hx. rewrite Forall_forall in HT. auto.
  - destruct v; cbn in HT; try contradiction. destruct HT as (HT & HS & HC). cbn [VtsSpec.mig]. repeat (split; [auto; fail|]). apply all2_refl. intros x Hx. rewrite Forall_forall in HT. auto.
  - destruct v; cbn in HT; try contradiction. destruct HT as (HT & HS & HC). cbn [VtsSpec.mig]. repeat (split; [auto; fail|]). apply all2_refl. intros x Hx. rewrite Forall_forall in HT.
    specialize (HT x Hx). destruct x; try contradiction. destruct HT, HU, HI. split; auto.
  - destruct v; cbn in HT; try contradiction. cbn [VtsSpec.mig]. split; auto. destruct HI as [HI HS]. split; auto. rewrite nth_error_map in *. destruct (nth_error ts i) as [u|] eqn:Eu; [|contradiction].
    cbn [option_map] in *. pose proof (nth_error_In _ _ Eu) as Hin. eapply Forall_forall in H; [|eauto]. pose proof (in_all _ _ _ HU Hin). pose proof (in_all _ _ _ HI Hin). apply H; auto.
  - contradiction.
  - destruct v; cbn in HT; try contradiction. destruct HU as (HR & HN & HD & HF & HU). destruct HI as [_ HI].
    assert (L1 : length l = length fs) by (apply each_length in HT; now rewrite map_length in HT).
    assert (L2 : length (as_list d) = length fs) by (apply each_length in HB; now rewrite map_length in HB).
    assert (HJ : forall j f, nth_error fs j = Some f -> index_of (rename sid (fst f)) fs = Some j).
    { intros j f Hj. rewrite (proj1 (HF f (nth_error_In _ _ Hj))). now apply index_of_nth. }
    cbn [VtsSpec.mig]. repeat (split; [auto; fail|]). split.
    { rewrite (map_ext_in _ fst); auto. intros f Hf. apply HF; auto. }
    repeat (split; [auto; fail|]). split.
    + apply fields_nth; auto. intros j f x Hf Hx. rewrite (HJ j f Hf). destruct (nth_error (as_list d) j) as [e|] eqn:He.
      2:{ apply nth_error_None in He. assert (j < length fs)%nat by (apply nth_error_Some; congruence). lia. }
      exists (snd f), e, x. rewrite nth_error_map, Hf. repeat (split; [auto; fail|]). split; [split; auto; apply HF; eapply nth_error_In; eauto|].
      pose proof (nth_error_In _ _ Hf) as Hin. eapply Forall_forall in H; [|eauto]. rewrite (map_snd unchanged) in HU. rewrite (map_snd (in_schema N)) in HI. apply H.
      * apply (in_all _ _ _ HU). now apply in_map.
      * apply (in_all _ _ _ HI). now apply in_map.
      * apply (each_nth _ _ j _ _ HT); auto. now rewrite nth_error_map, Hf.
      * apply (each_nth _ _ j _ _ HB); auto. now rewrite nth_error_map, Hf.
    + intros j Hj. destruct (nth_error fs j) as [f|] eqn:Ef; [exfalso; apply (Hj f (nth_error_In _ _ Ef)); auto|].
      apply nth_error_None in Ef. transitivity (@None val); [|symmetry]; apply nth_error_None; lia.
Qed.

Lemma all2_fields (P : fname * ty -> val -> Prop) fs : forall l, all2 P fs l ->
  (fix fields (fs : list (fname * ty)) (l : list val) : Prop := match fs, l with [], [] => True | f :: fs, x :: l => P f x /\ fields fs l | _, _ => False end) fs l.
Proof. induction fs as [|f fs IH]; intros [|x l] H; try contradiction; [exact I|]. destruct H as [H1 H2]. split; [exact H1|exact (IH l H2)]. Qed.
Lemma all2_ex {A B} (P : A -> B -> Prop) l : (forall x, In x l -> exists y, P x y) -> exists m, all2 P l m.
Proof.
  induction l as [|x l IH]; intros H; [exists []; exact I|]. destruct (H x (or_introl eq_refl)) as [y Hy]. destruct IH as [m Hm]; [intros; apply H; now right|].
  exists (y :: m). split; auto.
Qed.

Section Exists.
Context (HN : initialized E N).
Lemma blank_default t : in_schema N t -> blank t (default E t).
Proof.
  induction t using ty_ind'; cbn [in_schema blank default as_list]; auto.
  - intros Hi. rewrite repeat_length. split; auto. apply Forall_forall. intros x Hx. apply repeat_spec in Hx. subst. auto.
  - intros Hi. induction H as [|u us Hu Hus IH]; cbn in *; [exact I|]. destruct Hi. split; auto.
  - intros [Hi _]. now apply HN.
Qed.
Definition REACHES (t1 : ty) : Prop :=
  (forall t2 v1 d, evolves t1 (Some t2) -> in_schema N t2 -> has_ty E t1 v1 -> blank t2 d -> exists v2, mig t1 v1 (Some (t2, d, v2))) /\
  (forall v1, evolves t1 None -> has_ty E t1 v1 -> mig t1 v1 None).
Lemma reaches t1 : is_struct t1 = false ->
  (forall t2 v1 d, evolves t1 (Some t2) -> in_schema N t2 -> has_ty E t1 v1 -> blank t2 d -> exists v2, mig t1 v1 (Some (t2, d, v2))) -> REACHES t1.
Proof.
  intros Hs H. split; auto. intros v1 HE HT.
  assert (X : exists k t2, known_type N type_map t1 = Some k /\ nth_error (ftypes N) k = Some t2 /\ evolves t1 (Some t2)) by (destruct t1; try discriminate; exact HE).
  destruct X as (k & t2 & K1 & K2 & K3). assert (Hi : in_schema N t2) by (apply HN; eapply nth_error_In; eauto).
  destruct (H t2 v1 (default E t2) K3 Hi HT (blank_default _ Hi)) as [v2 M].
  assert (Y : exists k t2 v2, known_type N type_map t1 = Some k /\ nth_error (ftypes N) k = Some t2 /\ mig t1 v1 (Some (t2, default E t2, v2))) by eauto 6.
  destruct t1; try discriminate; exact Y.
Qed.
Lemma build_fields (s2 : nat) (fs2 : list (fname * ty)) (ds : list val) (R : fname * ty -> val -> val -> val -> ty -> Prop) (Q : fname * ty -> val -> Prop) :
  length ds = length fs2 ->
  forall fs l, length l = length fs -> NoDup (map (fun f => rename s2 (fst f)) fs) ->
  (forall f x, In (f, x) (combine fs l) -> match index_of (rename s2 (fst f)) fs2 with
                 | Some j => exists t e y, nth_error (map snd fs2) j = Some t /\ nth_error ds j = Some e /\ R f x e y t
                 | None => Q f x end) ->
  exists l2, length l2 = length fs2 /\
    all2 (fun f x => match index_of (rename s2 (fst f)) fs2 with
                     | Some j => exists t e y, nth_error (map snd fs2) j = Some t /\ nth_error ds j = Some e /\ nth_error l2 j = Some y /\ R f x e y t
                     | None => Q f x end) fs l /\
    (forall j, (forall f, In f fs -> index_of (rename s2 (fst f)) fs2 <> Some j) -> nth_error l2 j = nth_error ds j).
Proof.
  intros Lds. induction fs as [|f fs IH]; intros [|x l] L ND H; try discriminate.
  - exists ds. repeat split; auto.
  - inversion ND as [|? ? N1 N2]; subst. destruct (IH l) as (l2 & L2 & A & K); [now injection L|auto|intros; apply H; now right|].
    specialize (H f x (or_introl eq_refl)). destruct (index_of (rename s2 (fst f)) fs2) as [j|] eqn:Ej.
    + destruct H as (t & e & y & Ht & He & HR). assert (Hj : (j < length l2)%nat) by (rewrite L2, <- Lds; apply nth_error_Some; congruence).
      exists (set_nth l2 j y). split; [now rewrite set_nth_length|]. split.
      * split; [rewrite Ej; exists t, e, y; rewrite nth_error_set_nth_eq by auto; auto|].
        eapply all2_impl; [|exact A]. intros g z Hg Hz. cbn beta in *. destruct (index_of (rename s2 (fst g)) fs2) as [k|] eqn:Ek; [|auto].
        rewrite nth_error_set_nth_neq; auto. intros ->. apply N1. apply in_map_iff. exists g. split; auto. unfold index_of in *.
        apply find_first_some in Ej as (a & A1 & A2). apply find_first_some in Ek as (b & B1 & B2). apply fname_eqb_eq in A2, B2. congruence.
      * intros k Hk. rewrite nth_error_set_nth_neq; [apply K; intros; apply Hk; now right|]. intros ->. apply (Hk f); auto. now left.
    + exists l2. split; auto. split.
      * split; [now rewrite Ej|exact A].
      * intros k Hk. apply K. intros; apply Hk; now right.
Qed.
Lemma in_combine_nth {A B} (l : list A) (m : list B) x y : In (x, y) (combine l m) -> exists j, nth_error l j = Some x /\ nth_error m j = Some y.
Proof.
  revert m. induction l as [|a l IH]; intros [|b m] H; cbn in H; try contradiction. destruct H as [H|H]; [injection H as -> ->; exists 0%nat; auto|].
  destruct (IH m H) as (j & J). exists (S j). exact J.
Qed.
Lemma ev_fields (P : fname * ty -> Prop) fs : (fix fields (fs : list (fname * ty)) : Prop := match fs with [] => True | f :: fs => P f /\ fields fs end) fs -> forall f, In f fs -> P f.
Proof. induction fs as [|g fs IH]; intros H f Hf; [destruct Hf|]. destruct H, Hf as [<-|Hf]; auto. Qed.

Theorem evolves_mig t1 : REACHES t1.
Proof.
  induction t1 using ty_ind'; try (apply reaches; [reflexivity|]; intros t2 v1 d HE HI HT HB).
  1-5: cbn in HE; subst t2; exists v1; split; auto.
  - destruct IHt1 as [IH _]. destruct t2; try contradiction. cbn in HB. subst d. destruct v1; cbn [has_ty] in HT; try contradiction.
    + exists VNone. split; auto.
    + destruct (IH t2 v1 (default E t2) HE HI HT (blank_default t2 HI)) as [w Hw]. exists (VSome w). split; auto.
  - destruct IHt1 as [IH _]. destruct t2; try contradiction. destruct HE as [-> HE]. destruct v1; cbn [has_ty] in HT; try contradiction. destruct HT as [L HT]. cbn [blank] in HB. destruct HB as [LB HB].
    assert (X : exists l2, all3 (fun x d y => mig t1 x (Some (t2, d, y))) l (as_list d) l2).
    { assert (L2 : length (as_list d) = length l) by congruence. clear LB L. revert L2 HB. generalize (as_list d) as ds.
      induction HT as [|x l Hx Hl IHl]; intros [|e ds] L2 HB; try discriminate; [exists []; exact I|]. inversion HB; subst.
      destruct (IH t2 x e HE HI Hx) as [y Hy]; auto. destruct (IHl ds) as [l2 Hl2]; auto. exists (y :: l2). split; auto. }
    destruct X as [l2 X]. exists (VList l2). split; auto.
  - destruct IHt1 as [IH _]. destruct t2; try contradiction. destruct v1; cbn [has_ty] in HT; try contradiction. destruct HT as [HT HF]. cbn [blank] in HB.
    destruct (all2_ex (fun x y => mig t1 x (Some (t2, default E t2, y))) l) as [l2 X].
    { intros x Hx. rewrite Forall_forall in HT. apply (IH t2 x); auto. now apply blank_default. }
    exists (VList l2). split; auto.
  - destruct IHt1 as [IH _]. destruct t2; try contradiction. destruct HE as [HC HE]. destruct v1; cbn [has_ty] in HT; try contradiction. destruct HT as (HT & HS & HC'). cbn [blank] in HB.
    destruct (all2_ex (fun x y => mig t1 x (Some (t2, default E t2, y))) l) as [l2 X].
    { intros x Hx. rewrite Forall_forall in HT. apply (IH t2 x); auto. now apply blank_default. }
    exists (VList l2). cbn [VtsSpec.mig]. repeat (split; [auto; fail|]). split; auto. destruct cap as [cp|]; auto. destruct c as [c|]; [|destruct HC]. lia.
  - destruct t2; try contradiction. destruct HE as (-> & -> & HU). destruct v1; cbn [has_ty] in HT; try contradiction. exists (VList l).
    apply (mig_unchanged (TSet c0 t2)); auto. apply HN.
  - destruct IHt1_2 as [IH _]. destruct t2; try contradiction. destruct HE as (-> & -> & HU & HE). destruct HI as [HI1 HI2]. destruct v1; cbn [has_ty] in HT; try contradiction. destruct HT as (HT & HS & HO). cbn [blank] in HB.
    destruct (all2_ex (fun x y => match x with VPair k v => exists v', y = VPair k v' /\ mig t1_2 v (Some (t2_2, default E t2_2, v')) | _ => False end) l) as [l2 X].
    { intros x Hx. rewrite Forall_forall in HT. specialize (HT x Hx). destruct x; try contradiction. destruct HT as [_ HT]. destruct (IH t2_2 x2 (default E t2_2)) as [w Hw]; auto using blank_default. eauto. }
    exists (VList l2). cbn [VtsSpec.mig]. repeat (split; [auto; fail|]). split.
    + clear -X HO. revert l2 X. induction l as [|x l IHl]; intros [|y l2] X; cbn [all2] in X; try contradiction; [exact I|]. destruct X as [X1 X2]. destruct HO as [O1 O2]. split; [|apply IHl; auto].
      intros z Hz. assert (exists z', In z' l /\ pair_key z = pair_key z') as (z' & Z1 & Z2).
      { clear -X2 Hz. revert l2 X2 Hz. induction l as [|w l IHl]; intros [|y l2] X Hz; cbn [all2] in X; try contradiction. destruct X as [X1 X2]. destruct Hz as [<-|Hz].
        - exists w. split; [now left|]. destruct w; try contradiction. destruct X1 as (v' & -> & _). reflexivity.
        - destruct (IHl l2 X2 Hz) as (z' & Z1 & Z2). exists z'. split; [now right|auto]. }
      rewrite Z2. destruct x; try contradiction. destruct X1 as (v' & -> & _). apply (O1 z' Z1).
    + eapply all2_impl; [|exact X]. intros x y Hx HX. cbn beta in HX. rewrite Forall_forall in HT. specialize (HT x Hx). destruct x; try contradiction. destruct HX as (v' & -> & HX). destruct HT. split; auto.
      apply mig_unchanged; auto using blank_default. apply HN.
  - destruct t2 as [| | | | | | | | | | |us| |]; try contradiction. destruct v1 as [| | | | | | |i x|]; cbn [has_ty] in HT; try contradiction. destruct HI as [HI HS].
    rewrite nth_error_map in HT. destruct (nth_error ts i) as [t|] eqn:Et; [|contradiction]. cbn [option_map] in HT.
    assert (X : exists u, nth_error us i = Some u /\ evolves t (Some u)).
    { cbn [VtsSpec.evolves] in HE. clear -HE Et. revert us i HE Et. induction ts as [|t0 ts IH]; intros [|u us] [|i] HE Et; try discriminate; cbn in Et.
      - destruct HE.
      - destruct HE.
      - injection Et as ->. destruct HE. exists u. auto.
      - destruct HE as [_ HE]. destruct (IH us i HE Et) as (w & W). exists w. exact W. }
    destruct X as (u & Eu & HU). pose proof (nth_error_In _ _ Et). eapply Forall_forall in H; [|eauto]. destruct H as [H _].
    assert (Hu : in_schema N u) by (eapply (in_all (in_schema N)); eauto using nth_error_In).
    destruct (H u x (default E u) HU Hu HT (blank_default _ Hu)) as [y Hy]. exists (VVar i y). cbn [VtsSpec.mig]. rewrite nth_error_map, Et, Eu. cbn [option_map]. auto.
  - contradiction.
  - assert (IHs : forall f, In f fs -> REACHES (snd f)) by now apply Forall_forall.
    split.
    + intros t2 v1 d HE HI HT HB. destruct t2 as [| | | | | | | | | | | | |s2 fs2]; try contradiction. destruct v1 as [| | | | | | | |l1]; cbn [has_ty] in HT; try contradiction.
      destruct HE as (HR & HN2 & Hne & ND & HF). cbn [blank] in HB. destruct HI as [_ HI].
      assert (L1 : length l1 = length fs) by (apply each_length in HT; now rewrite map_length in HT).
      assert (L2 : length (as_list d) = length fs2) by (apply each_length in HB; now rewrite map_length in HB).
      pose proof (ev_fields (fun f => match index_of (rename s2 (fst f)) fs2 with
                                      | Some j => exists t, nth_error (map snd fs2) j = Some t /\ same_name type_map (snd f) t /\ evolves (snd f) (Some t)
                                      | None => evolves (snd f) None end) fs HF) as HF'.
      destruct (build_fields s2 fs2 (as_list d) (fun f x e y t => same_name type_map (snd f) t /\ mig (snd f) x (Some (t, e, y))) (fun f x => mig (snd f) x None) L2 fs l1 L1 ND) as (l2 & Ll2 & A & K).
      { intros f x Hfx. apply in_combine_nth in Hfx as (i & Hf & Hx). pose proof (nth_error_In _ _ Hf) as Hin. specialize (HF' f Hin). destruct (IHs f Hin) as [IH1 IH2].
        assert (Tx : has_ty E (snd f) x) by (apply (each_nth _ _ i _ _ HT); auto; now rewrite nth_error_map, Hf).
        cbn beta in HF'. destruct (index_of (rename s2 (fst f)) fs2) as [j|]; [|auto]. destruct HF' as (t & T1 & T2 & T3).
        rewrite nth_error_map in T1. destruct (nth_error fs2 j) as [g|] eqn:Eg; [|discriminate]. injection T1 as <-.
        destruct (nth_error (as_list d) j) as [e|] eqn:He.
        2:{ apply nth_error_None in He. assert (j < length fs2)%nat by (apply nth_error_Some; congruence). lia. }
        rewrite (map_snd (in_schema N)) in HI. destruct (IH1 (snd g) x e) as [y Hy]; auto.
        - apply (in_all _ _ _ HI). apply in_map. eapply nth_error_In; eauto.
        - apply (each_nth _ _ j _ _ HB); auto. now rewrite nth_error_map, Eg.
        - exists (snd g), e, y. rewrite nth_error_map, Eg. auto. }
      exists (VTup l2). cbn [VtsSpec.mig]. repeat (split; [auto; fail|]). split; [apply all2_fields|]; auto.
    + intros v1 HE HT. destruct v1 as [| | | | | | | |l1]; cbn [has_ty] in HT; try contradiction. cbn [VtsSpec.mig].
      pose proof (ev_fields (fun f => evolves (snd f) None) fs HE) as HF'.
      apply (fields_nth (fun f x => mig (snd f) x None)); [apply each_length in HT; now rewrite map_length in HT|]. intros j f x Hf Hx. pose proof (nth_error_In _ _ Hf) as Hin.
      apply (IHs f Hin); auto. apply (each_nth _ _ j _ _ HT); auto. now rewrite nth_error_map, Hf.
Qed.
End Exists.

(** The result is determined. *)
Lemma all2_det {A B} (P : A -> B -> Prop) l : forall m n, (forall x y z, In x l -> P x y -> P x z -> y = z) -> all2 P l m -> all2 P l n -> m = n.
Proof.
  induction l as [|x l IH]; intros [|y m] [|z n] H A1 A2; cbn in *; try contradiction; auto. destruct A1, A2. f_equal; eauto. 
Qed.
Theorem mig_det t1 : forall v1 t2 d v2 v3, mig t1 v1 (Some (t2, d, v2)) -> mig t1 v1 (Some (t2, d, v3)) -> v2 = v3.
Proof.
  induction t1 using ty_ind'; intros v1 t2 d v2 v3 M1 M2.
  1-5: destruct M1 as (_ & _ & ->), M2 as (_ & _ & ->); reflexivity.
  - destruct t2; try contradiction. destruct M1 as [_ M1], M2 as [_ M2]. destruct v1, v2; try contradiction; destruct v3; try contradiction; auto. f_equal. eauto.
  - destruct t2; try contradiction. destruct v1, v2; try contradiction; destruct v3; try contradiction. destruct M1 as [_ M1], M2 as [_ M2]. f_equal. revert M1 M2. generalize (as_list d) as ds. revert l0 l1.
    induction l as [|x l IH]; intros [|y m] [|z n'] [|e ds] M1 M2; cbn [all3] in *; try contradiction; auto. destruct M1, M2. f_equal; eauto.
  - destruct t2; try contradiction. destruct v1, v2; try contradiction; destruct v3; try contradiction. destruct M1 as (_ & _ & M1), M2 as (_ & _ & M2). f_equal. eapply all2_det; eauto. intros. cbn beta in *. eauto.
  - destruct t2; try contradiction. destruct v1, v2; try contradiction; destruct v3; try contradiction. destruct M1 as (_ & _ & _ & M1), M2 as (_ & _ & _ & M2). f_equal. eapply all2_det; eauto. intros. cbn beta in *. eauto.
  - destruct t2; try contradiction. destruct v1, v2; try contradiction; destruct v3; try contradiction. destruct M1 as (_ & _ & _ & M1), M2 as (_ & _ & _ & M2). f_equal. eapply all2_det; eauto. intros. cbn beta in *. eauto.
  - destruct t2; try contradiction. destruct v1, v2; try contradiction; destruct v3; try contradiction. destruct M1 as (_ & _ & _ & M1), M2 as (_ & _ & _ & M2). f_equal. eapply all2_det; eauto.
    intros x y z _ X Y. cbn beta in *. destruct x, y; try contradiction; destruct z; try contradiction. destruct X, Y. f_equal; eauto.
  - destruct t2; try contradiction. destruct v1, v2; try contradiction; destruct v3; try contradiction. destruct M1 as (<- & _ & M1), M2 as (<- & _ & M2).
    destruct (nth_error ts0 i); [|contradiction]. rewrite nth_error_map in M1, M2. destruct (nth_error ts i) as [u|] eqn:Eu; [|contradiction]. cbn [option_map] in *. f_equal.
    eapply Forall_forall in H; eauto using nth_error_In. 
  - destruct M1.
  - destruct t2 as [| | | | | | | | | | | | |s2 fs2]; try contradiction. destruct v1 as [| | | | | | | |l1], v2 as [| | | | | | | |l2]; try contradiction; destruct v3 as [| | | | | | | |l3]; try contradiction.
    destruct M1 as (_ & _ & _ & _ & L2 & _ & F2 & K2), M2 as (_ & _ & _ & _ & L3 & _ & F3 & K3). f_equal.
    pose proof (fields_all2 _ _ _ F2) as G2. pose proof (fields_all2 _ _ _ F3) as G3. clear F2 F3.
    apply nth_error_eq. intros j.
    assert (D : (exists f, In f fs /\ index_of (rename s2 (fst f)) fs2 = Some j) \/ (forall f, In f fs -> index_of (rename s2 (fst f)) fs2 <> Some j)).
    { clear. induction fs as [|f fs IH]; [right; intros f []|]. destruct (index_of (rename s2 (fst f)) fs2) as [k|] eqn:Ek.
      - destruct (Nat.eq_dec k j) as [->|NE]; [left; exists f; split; [now left|auto]|]. destruct IH as [(g & G1 & G2)|IH]; [left; exists g; split; [now right|auto]|].
        right. intros g [<-|G]; [congruence|auto].
      - destruct IH as [(g & G1 & G2)|IH]; [left; exists g; split; [now right|auto]|]. right. intros g [<-|G]; [congruence|auto]. }
    destruct D as [(f & Hf & Hj)|D]; [|rewrite (K2 j D); symmetry; auto]. clear K2 K3 L2 L3.
    revert l1 G2 G3. induction fs as [|g fs IH]; intros [|x l1] G2 G3; cbn [all2] in *; try contradiction. inversion H; subst. destruct G2 as [G2 G2'], G3 as [G3 G3']. destruct Hf as [<-|Hf].
    + rewrite Hj in G2, G3. destruct G2 as (t & e & y & A1 & A2 & A3 & _ & A5), G3 as (t' & e' & y' & B1 & B2 & B3 & _ & B5). rewrite A1 in B1. injection B1 as <-. rewrite A2 in B2. injection B2 as <-.
      rewrite A3, B3. f_equal. eauto.
    + eapply IH; eauto.
Qed.
End Evolve.
