(** Reading the data of any version in lockstep. *)
From Coq Require Import ZifyBool ZifyNat.
From Verif Require Import Common Int2ArrayModel Int2ArrayProps CodecModel CodecSpec CodecProofs CodecProps VtsModel VtsSpec VtsProofs VtsEvolve VtsProps VtsAnySpec.
Local Open Scope Z_scope.
Local Open Scope list_scope.
Local Notation vraw := (VtsModel.vraw get_raw). Local Notation read_index := (VtsModel.read_index get_raw).

Section Any.
Context (E : env) (O N : schema) (rename : nat -> fname -> fname) (type_map : fname -> fname) (allow_delete : bool).
Context (HclO : closed O) (Hidx : indexable O) (HclN : closed N) (Hknown : known_types O N type_map) (Hf : faithful O N type_map) (HR : readable E N)
  (Hne : forall fs, In fs (structs O) -> fs <> []).
Notation old_field := (old_field N type_map). Notation old_protos := (old_protos O N type_map). Notation otype := (otype N type_map).
Notation skip := (skip get_raw E N rename allow_delete old_protos). Notation hook f := (hook get_raw N rename allow_delete old_protos (skip f)).
Notation read f := (CodecModel.read E vraw (hook f)).
Notation write := (CodecModel.write E struct_index).

(** Cached maps are maps of the structures. *)
Definition cinv (c : cache) : Prop := forall i k m, c i = Some (k, m) ->
  exists fs1 fs2, nth_error (structs O) i = Some fs1 /\ nth_error (structs N) k = Some fs2 /\ map_protos N rename k (map old_field fs1) (new_proto N fs2) = Ok m.
(** [r] throws, or consumes exactly [bs] and returns something with [Q]. *)
Definition LK {A} (f : nat) (r : stream -> res (A * stream)) (bs : bytes) (Q : A -> Prop) : Prop :=
  forall rest c, cinv c -> (length (bs ++ rest) <= f)%nat ->
  match r (bs ++ rest, c) with Ok (v, (s, c')) => s = rest /\ cinv c' /\ Q v | Throw _ => True | UB => False end.

Lemma LK_bind {A B} f (r : stream -> res (A * stream)) (k : A -> stream -> res (B * stream)) b1 b2 (P : A -> Prop) (Q : B -> Prop) :
  LK f r b1 P -> (forall v, P v -> LK f (k v) b2 Q) -> LK f (fun s => let* (x, s1) := r s in k x s1) (b1 ++ b2) Q.
Proof.
  intros H1 H2 rest c I L. rewrite <- app_assoc in *. specialize (H1 _ c I L). destruct (r (b1 ++ b2 ++ rest, c)) as [[v [s c1]]| |]; cbn [rbind]; auto.
  destruct H1 as (-> & I1 & Pv). apply (H2 v Pv rest c1 I1). rewrite app_length in L. lia.
Qed.
Lemma LK_ret {A} f (v : A) (Q : A -> Prop) : Q v -> LK f (fun s => Ok (v, s)) [] Q.
Proof. intros H rest c I _. cbn [app]. auto. Qed.
Lemma LK_throw {A} f e b (Q : A -> Prop) : LK f (fun s => Throw e) b Q.
Proof. intros rest c I _. exact Logic.I. Qed.
Lemma LK_map {A B} f (r : stream -> res (A * stream)) (g : A -> B) bs (P : A -> Prop) (Q : B -> Prop) : LK f r bs P -> (forall v, P v -> Q (g v)) -> LK f (fun s => let* (x, s1) := r s in Ok (g x, s1)) bs Q.
Proof. intros H K. rewrite <- (app_nil_r bs). apply (LK_bind f r (fun x s1 => Ok (g x, s1)) bs [] P); auto. intros v Pv. apply LK_ret. auto. Qed.
Lemma LK_impl {A} f (r : stream -> res (A * stream)) bs (P Q : A -> Prop) : LK f r bs P -> (forall v, P v -> Q v) -> LK f r bs Q.
Proof. intros H K rest c I L. specialize (H rest c I L). destruct (r _) as [[v [s c1]]| |]; auto. destruct H as (H1 & H2 & H3). auto. Qed.
Lemma LK_ext {A} f (r r' : stream -> res (A * stream)) bs (Q : A -> Prop) : (forall s, r s = r' s) -> LK f r bs Q -> LK f r' bs Q.
Proof. intros H R rest c I L. rewrite <- H. now apply R. Qed.
Lemma LK_int f sg w b : length b = w -> LK f (get_int vraw sg w) b (fun _ => True).
Proof.
  intros Hw rest c I L. rewrite get_int_lift. unfold get_int. rewrite get_raw_app by auto. cbn [rbind lift]. auto.
Qed.
Lemma LK_size f n : small n -> LK f (get_size vraw) (put_size n) (fun z => z = Z.of_nat n).
Proof. intros H rest c I L. unfold get_size. rewrite get_int_lift. fold (get_size get_raw (put_size n ++ rest)). rewrite get_put_size by auto. cbn [lift rbind]. auto. Qed.
Lemma LK_byte f b : 0 <= b < 256 -> LK f (get_int vraw false 1) [b] (fun z => z = b).
Proof. intros H rest c I L. rewrite get_int_lift. cbn [app]. rewrite get_byte by auto. cbn [lift rbind]. auto. Qed.
Lemma LK_bits f l : LK f (get_bits vraw (length l) (length l)) (put_bits (length l) l) (fun l' => length l' = length l).
Proof. intros rest c I L. rewrite get_bits_lift, get_put_bits by lia. cbn [lift rbind]. auto. Qed.

(** A piece of data: whatever has its layout can be read from it; [A u] holds if reading into [u] succeeds. *)
Definition chunk (L : layout) (b : bytes) (A : ty -> Prop) : Prop :=
  forall u d f, layout_of u = L -> in_schema N u -> sized u d -> LK f (read f u d) b (fun v => sized u v /\ A u).
Lemma chunk_impl L b (A B : ty -> Prop) : chunk L b A -> (forall u, A u -> B u) -> chunk L b B.
Proof. intros H K u d f Hu Hs Hd. eapply LK_impl; [apply H; auto|]. intros v [? ?]. auto. Qed.

Lemma sized_default u : in_schema N u -> sized u (default E u).
Proof.
  destruct HR as [HI _]. induction u using ty_ind'; intros HS; cbn [sized default as_list in_schema] in *; auto.
  - split; [apply repeat_length|]. apply Forall_forall. intros x Hx. apply repeat_spec in Hx. subst. auto.
  - induction H as [|t ts Ht Hts IH]; cbn in *; [exact I|]. destruct HS. auto.
  - apply HI. apply HS.
Qed.
Lemma sized_resize u n l : in_schema N u -> Forall (sized u) l -> Forall (sized u) (resize n (default E u) l) /\ length (resize n (default E u) l) = n.
Proof.
  intros HS HF. unfold resize. split.
  - apply Forall_app. split.
    + rewrite <- (firstn_skipn n l) in HF. now apply Forall_app in HF.
    + apply Forall_forall. intros x Hx. apply repeat_spec in Hx. subst. now apply sized_default.
  - rewrite app_length, firstn_length, repeat_length. lia.
Qed.

Lemma Forall2_impl {A B} (P Q : A -> B -> Prop) l m : (forall x y, P x y -> Q x y) -> Forall2 P l m -> Forall2 Q l m.
Proof. intros K H. induction H; constructor; auto. Qed.
(** ** Loops *)
Notation each_chunk L bl As := (Forall2 (chunk L) bl As).
Lemma LK_list L f u : layout_of u = L -> in_schema N u -> forall bl As, each_chunk L bl As -> forall ds, length ds = length bl -> Forall (sized u) ds ->
  LK f (get_list (read f u) ds) (concat bl) (fun l => length l = length bl /\ Forall (sized u) l /\ Forall (fun A => A u) As).
Proof.
  intros Hu HS bl As H. induction H as [|b A bl As Hb HF IH]; intros [|d ds] Ld HD; cbn [length] in Ld; try lia; cbn [get_list concat].
  - apply LK_ret. auto.
  - inversion HD; subst. eapply LK_bind; [apply Hb; auto|]. cbv beta. intros v [Hv HA].
    eapply (LK_map f (get_list (read f u) ds) (cons v)); [apply IH; auto|]. cbv beta. intros l (H1' & H2' & H3'). cbn [length]. split; [lia|split; auto].
Qed.
Lemma LK_add {B} f (r : stream -> res (val * stream)) add : forall (bl : list bytes) (As : list B) (P : B -> Prop) acc,
  Forall2 (fun b A => LK f r b (fun v => P A)) bl As ->
  LK f (get_add r add (length bl) acc) (concat bl) (fun _ => Forall P As).
Proof.
  intros bl As P acc H. revert acc. induction H as [|b A bl As Hb HF IH]; intros acc; cbn [get_add concat length].
  - apply LK_ret. auto.
  - eapply LK_bind; [exact Hb|]. cbv beta. intros v HA. eapply LK_impl; [apply IH|]. auto.
Qed.
Lemma LK_tuple f us : forall ls bl As, map layout_of us = ls -> all (map (in_schema N) us) -> (forall i l b A, nth_error ls i = Some l -> nth_error bl i = Some b -> nth_error As i = Some A -> chunk l b A) ->
  length bl = length ls -> length As = length ls -> forall ds, each (map sized us) ds ->
  LK f (get_each (map (read f) us) ds) (concat bl) (fun l => each (map sized us) l /\ Forall2 (fun (A : ty -> Prop) u => A u) As us).
Proof.
  induction us as [|u us IH]; intros ls bl As <- HS HC L1 L2 ds HD; destruct bl as [|b bl], As as [|A As]; cbn [length map] in L1, L2; try lia; destruct ds as [|d ds]; cbn [map each] in HD; try contradiction;
    cbn [map get_each concat hd tl each].
  - apply LK_ret. split; auto.
  - destruct HD as [HD1 HD2]. destruct HS as [HS1 HS2].
    eapply LK_bind; [apply (HC 0%nat (layout_of u) b A eq_refl eq_refl eq_refl u); auto|]. cbv beta. intros v [Hv HA].
    eapply (LK_map f (get_each (map (read f) us) ds) (cons v)).
    + apply (IH _ bl As eq_refl); auto. intros i l b' A' X1 X2 X3. apply (HC (S i)); auto.
    + cbv beta. intros l [X1 X2]. split; [split; auto|constructor; auto].
Qed.

(** ** Sequences *)
Definition elem_ty (t : ty) : ty := match t with TVec t | TDeque _ t | TSet _ t => t | TStr w => TInt false w | TMap _ k v => TTuple [k; v] | t => t end.
Lemma chunk_pair a b k t f b0 (A : ty -> Prop) : chunk (LTup [a; b]) b0 A -> layout_of k = a -> layout_of t = b -> in_schema N k -> in_schema N t ->
  LK f (fun s => let* (x, s1) := read f k (default E k) s in let* (y, s2) := read f t (default E t) s1 in Ok (VPair x y, s2)) b0 (fun _ => A (TTuple [k; t])).
Proof.
  intros H Ha Hb Hk Ht rest c I L. specialize (H (TTuple [k; t]) (VTup [default E k; default E t]) f).
  assert (X : LK f (read f (TTuple [k; t]) (VTup [default E k; default E t])) b0 (fun v => sized (TTuple [k; t]) v /\ A (TTuple [k; t]))).
  { apply H; cbn; [now rewrite Ha, Hb|auto|]. split; [|split]; auto using sized_default. }
  specialize (X rest c I L). cbn [CodecModel.read map get_each as_list hd tl] in X. destruct (read f k (default E k) (b0 ++ rest, c)) as [[x s1]| |]; cbn [rbind] in *; auto.
  destruct (read f t (default E t) s1) as [[y s2]| |]; cbn [rbind] in *; auto. destruct s2 as [s2 c2]. destruct X as (X1 & X2 & _ & X3). auto.
Qed.
Lemma chunk_seq L bl As : each_chunk L bl As -> small (length bl) -> chunk (LSeq L) (put_size (length bl) ++ concat bl) (fun u => Forall (fun A => A (elem_ty u)) As).
Proof.
  intros H Hn u d f Hu HS HD. destruct u as [| | |cw| | |n u|u|cap u|c u|c k u|us|us|s fs].
  all: simpl in Hu.
  all: try discriminate Hu.
  - (* string *) injection Hu as <-. cbn [CodecModel.read elem_ty sized]. eapply LK_bind; [now apply LK_size|]. cbv beta. intros z ->.
    match goal with |- LK _ (fun s1 => if ?x then _ else _) _ _ => destruct x end; [apply LK_throw|].
    match goal with |- LK _ (fun s1 => if ?x then _ else _) _ _ => destruct x end; [apply LK_throw|].
    rewrite Nat2Z.id. assert (X : forall m, m = length bl -> LK f (get_list (fun _ s => let* (z, r) := get_int vraw false cw s in Ok (VInt z, r)) (repeat VNone m)) (concat bl) (fun _ => Forall (fun A => A (TInt false cw)) As)).
    { clear Hn HD. induction H as [|b A bl As Hb HF IH]; intros m ->; cbn [length repeat get_list concat]; [apply LK_ret; auto|].
      eapply LK_bind; [apply (Hb (TInt false cw) VNone f); auto; exact I|]. cbv beta. intros v [_ HA].
      eapply (LK_map f (get_list _ _) (cons v)); [apply IH; auto|]. cbv beta. auto. }
    eapply (LK_map f (get_list _ _) (fun l => VStr (map (fun v => match v with VInt z => z | _ => 0 end) l))); [now apply X|]. cbv beta. auto.
  - (* array *) destruct u; discriminate.
  - (* vector *) assert (Q : layout_of u = L /\ u <> TBool) by (destruct u; try discriminate Hu; injection Hu as <-; split; auto; discriminate). destruct Q as [Q1 Q2].
    cbn [CodecModel.read elem_ty sized]. eapply LK_bind; [now apply LK_size|]. cbv beta. intros z ->.
    match goal with |- LK _ (fun s1 => if ?x then _ else _) _ _ => destruct x end; [apply LK_throw|]. rewrite Nat2Z.id.
    cbn [in_schema] in HS. destruct (sized_resize u (length bl) (as_list d) HS HD) as [F1 F2].
    eapply (LK_map f (get_elems vraw u (read f u) (resize (length bl) (default E u) (as_list d))) VList (concat bl)); [|].
    + eapply LK_ext; [|eapply (LK_list L f u Q1 HS bl As H _ F2 F1)]. intros s. destruct u; try reflexivity. congruence.
    + cbv beta. cbn [as_list]. intuition.
  - (* deque *) injection Hu as <-. cbn [CodecModel.read elem_ty sized in_schema] in *. eapply LK_bind; [now apply LK_size|]. cbv beta. intros z ->. rewrite Nat2Z.id.
    eapply (LK_map f (get_add (read f u (default E u)) (deque_push cap) (length bl) (as_list d)) VList (concat bl) (fun _ => Forall (fun A => A u) As)); [|auto].
    apply (LK_add f _ _ bl As (fun A => A u)). eapply Forall2_impl; [|exact H]. intros b A Hb. eapply LK_impl; [apply Hb; auto using sized_default|]. cbv beta. intuition.
  - (* set *) injection Hu as <-. cbn [CodecModel.read elem_ty sized in_schema] in *. eapply LK_bind; [now apply LK_size|]. cbv beta. intros z ->. rewrite Nat2Z.id.
    eapply (LK_map f (get_add (read f u (default E u)) (set_insert (cmp E c) (fun v => v)) (length bl) (as_list d)) VList (concat bl) (fun _ => Forall (fun A => A u) As)); [|auto].
    apply (LK_add f _ _ bl As (fun A => A u)). eapply Forall2_impl; [|exact H]. intros b A Hb. eapply LK_impl; [apply Hb; auto using sized_default|]. cbv beta. intuition.
  - (* map *) injection Hu as <-. cbn [CodecModel.read elem_ty sized in_schema] in *. destruct HS as [HS1 HS2]. eapply LK_bind; [now apply LK_size|]. cbv beta. intros z ->. rewrite Nat2Z.id.
    eapply (LK_map f (get_add _ (set_insert (cmp E c) pair_key) (length bl) (as_list d)) VList (concat bl) (fun _ => Forall (fun A => A (TTuple [k; u])) As)); [|auto].
    apply (LK_add f _ _ bl As (fun A => A (TTuple [k; u]))). eapply Forall2_impl; [|exact H]. intros b A Hb. eapply chunk_pair; eauto.
Qed.

(** ** Structures *)
Lemma otype_struct t : is_struct t = true -> otype t = None.
Proof. unfold VtsProofs.otype. now intros ->. Qed.
(** The piece of data of an old type can be skipped. *)
Definition skips (o : option nat) (b : bytes) : Prop :=
  forall f rest c, cinv c -> (length (b ++ rest) < f)%nat -> match skip f o (b ++ rest, c) with Ok (s, c') => s = rest /\ cinv c' | Throw _ => True | UB => False end.
Lemma chunk_skips t b A : In t (ftypes O) -> is_struct t = false -> known_type N type_map t <> None -> chunk (layout_of t) b A -> skips (otype t) b.
Proof.
  intros HI HS HK H f rest c I L. unfold VtsProofs.otype. rewrite HS. destruct (known_type N type_map t) as [k|] eqn:Ek; [|congruence].
  destruct (name_old _ _ _ _ Ek) as (u & Hu & Nu). destruct f as [|f]; [lia|]. cbn [VtsModel.skip]. rewrite Hu.
  pose proof (nth_error_In _ _ Hu) as Iu. pose proof (Hf t u HI Iu (eq_sym Nu)) as HL. assert (Su : in_schema N u) by (apply HR; auto).
  specialize (H u (default E u) f (eq_sym HL) Su (sized_default u Su) rest c I). destruct (read f u (default E u) (b ++ rest, c)) as [[v [s c']]| |]; cbn [rbind]; auto.
  - destruct H as (H1 & H2 & _); [lia|]. auto.
  - apply H. lia.
Qed.
Lemma skip_all_LK fs : forall bl, Forall2 (fun f b => skips (otype (snd f)) b) fs bl -> forall g rest c, cinv c -> (length (concat bl ++ rest) < g)%nat ->
  match skip_all (skip g) (map old_field fs) (concat bl ++ rest, c) with Ok (s, c') => s = rest /\ cinv c' | Throw _ => True | UB => False end.
Proof.
  induction fs as [|f fs IH]; intros bl H g rest c I L; inversion H; subst; cbn [map skip_all concat] in *; [auto|].
  rewrite <- app_assoc in *. change (snd (old_field f)) with (otype (snd f)).
  match goal with X : skips _ _ |- _ => specialize (X g _ c I L) end. destruct (skip g (otype (snd f)) _) as [[s c1]| |]; cbn [rbind]; auto.
  match goal with X : _ /\ _ |- _ => destruct X as [-> I1] end. apply IH; auto. rewrite app_length in L. lia.
Qed.

Section OneStruct.
Context (s1 s2 : nat) (fs1 fs2 : list (fname * ty)) (f0 : nat).
Context (HO : nth_error (structs O) s1 = Some fs1) (HN : nth_error (structs N) s2 = Some fs2) (HS : all (map (fun f => in_schema N (snd f)) fs2)).
Notation rds := (map (fun f => read f0 (snd f)) fs2).
Notation idx f := (index_of (rename s2 (fst f)) fs2).
(** What holds for a field if it has been read. *)
Definition field_read (f : fname * ty) (A : ty -> Prop) : Prop :=
  match idx f with Some j => exists g, nth_error fs2 j = Some g /\ A (snd g) | None => allow_delete = true end.
Notation good := (each (map (fun f => sized (snd f)) fs2)).
(** The fields of the data *)
Definition piece (f : fname * ty) (b : bytes) (A : ty -> Prop) : Prop := chunk (layout_of (snd f)) b A /\ skips (otype (snd f)) b.

Lemma same_layout f j g : In f fs1 -> idx f = Some j -> nth_error fs2 j = Some g -> ~ mismatch type_map (snd f) (snd g) -> layout_of (snd g) = layout_of (snd f).
Proof.
  intros Hf1 Hj Hg HM. pose proof (nth_error_In _ _ HO) as I1. pose proof (nth_error_In _ _ HN) as I2. pose proof (nth_error_In _ _ Hg) as I3. unfold mismatch in HM.
  destruct (is_struct (snd f)) eqn:S1, (is_struct (snd g)) eqn:S2; try (exfalso; apply HM; left; congruence).
  - destruct (snd f), (snd g); try discriminate. reflexivity.
  - symmetry. apply Hf; [eapply HclO; eauto|eapply HclN; eauto|]. destruct (list_eq_dec Z.eq_dec (type_map (type_name (snd f))) (type_name (snd g))) as [|X]; auto. exfalso. apply HM. right. auto.
Qed.
Lemma mapped m : map_protos N rename s2 (map old_field fs1) (new_proto N fs2) = Ok m ->
  (forall f j g, In f fs1 -> idx f = Some j -> nth_error fs2 j = Some g -> ~ mismatch type_map (snd f) (snd g)) /\
  (m = [] /\ length fs1 = length fs2 /\ map (fun f => idx f) fs1 = map Some (seq 0 (length fs1)) \/ m = map (fun f => idx f) fs1).
Proof.
  unfold map_protos. rewrite mapM_map. destruct (mapM (fun x => map_field N rename s2 (new_proto N fs2) (old_field x)) fs1) as [m'| |] eqn:EM; cbn [rbind]; try discriminate.
  assert (C : forall fs m, (forall f, In f fs -> In f fs1) -> mapM (fun x => map_field N rename s2 (new_proto N fs2) (old_field x)) fs = Ok m ->
    (forall f j g, In f fs -> idx f = Some j -> nth_error fs2 j = Some g -> ~ mismatch type_map (snd f) (snd g)) /\ m = map (fun f => idx f) fs).
  { clear m' EM m. induction fs as [|f fs IH]; intros m Hin M; cbn [mapM] in M; [apply ok_inj in M; subst; split; [intros ? ? ? []|auto]|].
    pose proof (map_field_cases O N rename type_map HclN s1 fs1 f s2 fs2 HO HN Hknown (Hin f (or_introl eq_refl))) as K.
    destruct (map_field N rename s2 (new_proto N fs2) (old_field f)) as [y| |] eqn:Ey; cbn [rbind] in M; try discriminate.
    destruct (mapM _ fs) as [ys| |] eqn:Eys; cbn [rbind] in M; try discriminate. apply ok_inj in M. subst m.
    destruct (IH ys (fun g Hg => Hin g (or_intror Hg)) eq_refl) as [IH1 ->]. destruct (idx f) as [j|] eqn:Ej.
    - destruct K as (g & Hg & [[_ K]|[K1 K]]); [discriminate|]. apply ok_inj in K. subst y. split; [|cbn [map]; now rewrite Ej].
      intros f' j' g' [<-|X] Hj' Hg'; [|eauto]. rewrite Ej in Hj'. injection Hj' as <-. rewrite Hg in Hg'. injection Hg' as <-. auto.
    - apply ok_inj in K. subst y. split; [|cbn [map]; now rewrite Ej]. intros f' j' g' [<-|X] Hj' Hg'; [congruence|eauto]. }
  intros M. apply ok_inj in M. subst m. destruct (C fs1 m' ltac:(auto) EM) as [C1 ->]. split; auto.
  destruct (trivial_map _ _ _) eqn:T; [left|right; auto]. split; auto. unfold trivial_map in T. apply andb_prop in T as [T1 T2]. apply Nat.eqb_eq in T1. unfold new_proto in T1. rewrite !map_length in T1.
  split; auto. destruct (list_eq_dec _ _ _) as [EQ|]; [|discriminate]. now rewrite map_length in EQ.
Qed.
Lemma good_nth cur j g : good cur -> nth_error fs2 j = Some g -> sized (snd g) (nth j cur VNone).
Proof.
  clear. revert cur j. induction fs2 as [|h hs IH]; intros [|x cur] [|j] G H; cbn in *; try discriminate; try contradiction; destruct G as [G1 G2]; [now injection H as <-|eauto].
Qed.
Lemma good_set cur j g v : good cur -> nth_error fs2 j = Some g -> sized (snd g) v -> good (set_nth cur j v).
Proof.
  clear. revert cur j. induction fs2 as [|h hs IH]; intros [|x cur] [|j] G H K; cbn in *; try discriminate; try contradiction; destruct G as [G1 G2]; [injection H as <-; auto|eauto].
Qed.
Lemma schema_nth j g : nth_error fs2 j = Some g -> in_schema N (snd g).
Proof. intros H. rewrite (map_snd (in_schema N)) in HS. apply (in_all _ _ _ HS). apply in_map. eapply nth_error_In; eauto. Qed.
Context (HM : forall f j g, In f fs1 -> idx f = Some j -> nth_error fs2 j = Some g -> ~ mismatch type_map (snd f) (snd g)).
Lemma types_match f j g : In f fs1 -> idx f = Some j -> nth_error fs2 j = Some g ->
  match snd (old_field f), field_type N (snd g) with Some a, Some b => types_equal N a b | None, None => Ok true | _, _ => UB end = Ok true.
Proof.
  intros Hf1 Hj Hg. pose proof (HM f j g Hf1 Hj Hg) as K. pose proof (nth_error_In _ _ HO) as I1. pose proof (nth_error_In _ _ HN) as I2. pose proof (nth_error_In _ _ Hg) as I3.
  destruct (is_struct (snd f)) eqn:S1.
  - assert (S2 : is_struct (snd g) = true) by (destruct (is_struct (snd g)) eqn:S2; auto; exfalso; apply K; left; congruence).
    unfold VtsProofs.old_field. rewrite S1. cbn [snd]. destruct (snd g); try discriminate. reflexivity.
  - assert (SN : same_name type_map (snd f) (snd g)).
    { unfold mismatch in K. split.
      - destruct (is_struct (snd g)) eqn:S2; auto. exfalso. apply K. left. congruence.
      - destruct (list_eq_dec Z.eq_dec (type_map (type_name (snd f))) (type_name (snd g))) as [|X]; auto. exfalso. apply K. right. auto. }
    pose proof (same_name_eq O N type_map HclN Hknown fs1 f fs2 g I1 Hf1 I2 I3 SN) as TE. unfold type_eq in TE.
    destruct (snd (old_field f)), (field_type N (snd g)); try contradiction; auto.
Qed.
Lemma read_mapped_LK : forall fs bl As, (forall f, In f fs -> In f fs1) -> length bl = length fs -> length As = length fs ->
  (forall i f b A, nth_error fs i = Some f -> nth_error bl i = Some b -> nth_error As i = Some A -> piece f b A) ->
  forall cur rest c, cinv c -> good cur -> (length (concat bl ++ rest) < f0)%nat ->
  match read_mapped N allow_delete (skip f0) s2 rds (combine (map old_field fs) (map (fun f => idx f) fs)) cur (concat bl ++ rest, c) with
  | Ok (l, (s, c')) => s = rest /\ cinv c' /\ good l /\ Forall2 field_read fs As | Throw _ => True | UB => False end.
Proof.
  induction fs as [|f fs IH]; intros [|b bl] [|A As] Hin L1 L2 HP cur rest c I G L; cbn [length] in L1, L2; try lia; cbn [map combine read_mapped concat].
  - auto.
  - destruct (HP 0%nat f b A eq_refl eq_refl eq_refl) as [HC HK]. cbn [concat] in L. rewrite <- app_assoc in *.
    assert (IHs : forall cur c, cinv c -> good cur -> match read_mapped N allow_delete (skip f0) s2 rds (combine (map old_field fs) (map (fun f => idx f) fs)) cur (concat bl ++ rest, c) with
      | Ok (l, (s, c')) => s = rest /\ cinv c' /\ good l /\ Forall2 field_read fs As | Throw _ => True | UB => False end).
    { intros. apply IH; auto; [intros; apply Hin; now right| |rewrite app_length in L; lia]. intros i f' b' A' X1 X2 X3. apply (HP (S i)); auto. }
    change (old_field f) with (fst f, snd (old_field f)). cbv beta iota. destruct (idx f) as [j|] eqn:Ej.
    + pose proof Ej as Ej'. apply find_first_some in Ej' as (g & Hg & _). cbv zeta. rewrite (nth_error_nth _ _ [] HN), (new_proto_at N fs2 j (snd g)) by (rewrite nth_error_map, Hg; reflexivity).
      rewrite (types_match f j g (Hin f (or_introl eq_refl)) Ej Hg). cbn [rbind negb]. rewrite nth_error_map, Hg. cbn [option_map].
      specialize (HC (snd g) (nth j cur VNone) f0 (same_layout f j g (Hin f (or_introl eq_refl)) Ej Hg (HM f j g (Hin f (or_introl eq_refl)) Ej Hg)) (schema_nth j g Hg) (good_nth cur j g G Hg) (concat bl ++ rest) c I ltac:(lia)).
      destruct (read f0 (snd g) (nth j cur VNone) (b ++ concat bl ++ rest, c)) as [[v [s c1]]| |]; cbn [rbind]; auto. destruct HC as (-> & I1 & Hv & HA).
      specialize (IHs (set_nth cur j v) c1 I1 (good_set cur j g v G Hg Hv)). destruct (read_mapped _ _ _ _ _ _ _ _) as [[l [s c']]| |]; auto.
      destruct IHs as (-> & I' & G' & F). repeat split; auto. constructor; auto. unfold field_read. rewrite Ej. eauto.
    + destruct (Bool.bool_dec allow_delete true) as [AD|AD].
      2:{ match goal with |- context[if allow_delete then ?a else ?b] => replace (if allow_delete then a else b) with b by (destruct allow_delete; [congruence|reflexivity]) end. exact Logic.I. }
      match goal with |- context[if allow_delete then ?a else ?b] => replace (if allow_delete then a else b) with a by (destruct allow_delete; [reflexivity|congruence]) end. specialize (HK f0 (concat bl ++ rest) c I L). change (snd (old_field f)) with (otype (snd f)).
      destruct (skip f0 (otype (snd f)) (b ++ concat bl ++ rest, c)) as [[s c1]| |]; cbn [rbind]; auto. destruct HK as (-> & I1).
      specialize (IHs cur c1 I1 G). destruct (read_mapped _ _ _ _ _ _ _ _) as [[l [s c']]| |]; auto. destruct IHs as (-> & I' & G' & F). repeat split; auto. constructor; auto. unfold field_read. rewrite Ej. auto.
Qed.
Lemma idx_seq i f : map (fun f => idx f) fs1 = map Some (seq 0 (length fs1)) -> nth_error fs1 i = Some f -> idx f = Some i.
Proof.
  intros H Hi. assert (L : (i < length fs1)%nat) by (apply nth_error_Some; congruence).
  assert (K : nth_error (map (fun f => idx f) fs1) i = nth_error (map Some (seq 0 (length fs1))) i) by now rewrite H.
  rewrite !nth_error_map, Hi in K. cbn [option_map] in K. rewrite (nth_error_nth' _ 0%nat) in K by (rewrite seq_length; lia). rewrite seq_nth in K by lia. cbn in K. congruence.
Qed.
Lemma get_each_LK bl As ds : length fs1 = length fs2 -> map (fun f => idx f) fs1 = map Some (seq 0 (length fs1)) -> length bl = length fs1 -> length As = length fs1 ->
  (forall i f b A, nth_error fs1 i = Some f -> nth_error bl i = Some b -> nth_error As i = Some A -> piece f b A) -> good ds ->
  LK f0 (get_each rds ds) (concat bl) (fun l => good l /\ Forall2 field_read fs1 As).
Proof.
  intros L M L1 L2 HP G.
  assert (HL : map layout_of (map snd fs2) = map layout_of (map snd fs1)).
  { apply nth_error_eq. intros j. rewrite !nth_error_map. destruct (nth_error fs1 j) as [f|] eqn:Ef.
    - destruct (nth_error fs2 j) as [g|] eqn:Eg; [|apply nth_error_None in Eg; assert (j < length fs1)%nat by (apply nth_error_Some; congruence); lia].
      cbn [option_map]. f_equal. pose proof (idx_seq j f M Ef) as Ej. pose proof (nth_error_In _ _ Ef) as I1. eapply same_layout; eauto.
    - apply nth_error_None in Ef. destruct (nth_error fs2 j) as [g|] eqn:Eg; [assert (j < length fs2)%nat by (apply nth_error_Some; congruence); lia|reflexivity]. }
  rewrite (map_snd (in_schema N)) in HS. rewrite (map_snd sized) in *. rewrite (map_snd (read f0)).
  eapply LK_impl; [apply (LK_tuple f0 (map snd fs2) _ bl As HL HS); auto; rewrite ?map_length; auto|].
  - intros i l b A X1 X2 X3. rewrite !nth_error_map in X1. destruct (nth_error fs1 i) as [f|] eqn:Ef; [|discriminate]. injection X1 as <-. now apply (HP i f b A).
  - cbv beta. intros l [X1 X2]. split; auto.
    assert (Q : forall (fs : list (fname * ty)) (As : list (ty -> Prop)), length fs = length As -> (forall i f A, nth_error fs i = Some f -> nth_error As i = Some A -> field_read f A) -> Forall2 field_read fs As).
    { clear. induction fs as [|f fs IH]; intros [|A As] L H; cbn in L; try lia; constructor; [now apply (H 0%nat)|]. apply IH; [lia|]. intros i. apply (H (S i)). }
    apply Q; [lia|]. intros i f A Hi HA. unfold field_read. rewrite (idx_seq i f M Hi).
    assert (Hx : forall (As : list (ty -> Prop)) us, Forall2 (fun (A : ty -> Prop) u => A u) As us -> forall i A, nth_error As i = Some A -> exists u, nth_error us i = Some u /\ A u).
    { clear. induction 1 as [|A u As us H1 H2 IH]; intros [|i] B HB; cbn in HB; try discriminate; [injection HB as <-; cbn; eauto|eauto]. }
    destruct (Hx _ _ X2 i A HA) as (u & Hu & Au). rewrite nth_error_map in Hu. destruct (nth_error fs2 i) as [g|]; [|discriminate]. injection Hu as <-. eauto.
Qed.
End OneStruct.

Lemma LK_index f s1 fs1 : nth_error (structs O) s1 = Some fs1 -> LK f (read_index old_protos) (struct_index s1) (fun i => i = s1).
Proof.
  intros HO rest c I L. assert (Hs : (s1 < length (structs O))%nat) by (apply nth_error_Some; congruence). destruct Hidx as [Hi _].
  unfold VtsModel.read_index, struct_index. rewrite get_int_lift, get_put_int; [|lia|unfold range; change (8 * Z.of_nat 2) with 16; lia]. cbn [lift rbind].
  unfold VtsProofs.old_protos. rewrite map_length. replace (Z.of_nat (length (structs O)) <=? Z.of_nat s1) with false by lia. rewrite Nat2Z.id. auto.
Qed.
(** No field of the old structure that has a field of its name in the new one has another type. *)
Definition compatible (p q : nat) : Prop := forall fs gs, nth_error (structs O) p = Some fs -> nth_error (structs N) q = Some gs -> forall f, In f fs ->
  match index_of (rename q (fst f)) gs with Some j => forall g, nth_error gs j = Some g -> ~ mismatch type_map (snd f) (snd g) | None => allow_delete = true end.
Lemma hook_LK s1 s2 fs1 fs2 f0 bl As ds : nth_error (structs O) s1 = Some fs1 -> nth_error (structs N) s2 = Some fs2 -> all (map (fun f => in_schema N (snd f)) fs2) ->
  length bl = length fs1 -> length As = length fs1 ->
  (forall i f b A, nth_error fs1 i = Some f -> nth_error bl i = Some b -> nth_error As i = Some A -> piece f b A) -> each (map (fun f => sized (snd f)) fs2) ds ->
  LK f0 (hook f0 s2 (map (fun f => read f0 (snd f)) fs2) ds) (struct_index s1 ++ concat bl)
     (fun l => each (map (fun f => sized (snd f)) fs2) l /\ compatible s1 s2 /\ Forall2 (field_read s2 fs2) fs1 As).
Proof.
  intros HO HN HS L1 L2 HP G rest c I L. rewrite <- app_assoc in *. unfold VtsModel.hook.
  pose proof (LK_index f0 s1 fs1 HO (concat bl ++ rest) c I L) as RI. destruct (read_index old_protos (struct_index s1 ++ concat bl ++ rest, c)) as [[i [s c1]]| |]; cbn [rbind fst snd]; auto.
  destruct RI as (-> & I1 & ->). assert (Lt : (length (concat bl ++ rest) < f0)%nat). { rewrite app_length in L. unfold struct_index in L. rewrite put_int_length in L. lia. }
  assert (P1 : nth s1 old_protos [] = map old_field fs1) by (apply nth_error_nth; unfold VtsProofs.old_protos; now rewrite nth_error_map, HO).
  assert (K : match find_map N rename old_protos s2 s1 c1 with Ok (m, c2) => cinv c2 /\ map_protos N rename s2 (map old_field fs1) (new_proto N fs2) = Ok m | Throw _ => True | UB => False end).
  { unfold find_map. destruct (c1 s1) as [[k m]|] eqn:Ec.
    - destruct (Nat.eqb_spec k s2) as [->|]; [|exact Logic.I]. split; auto. destruct (I1 _ _ _ Ec) as (a & b & Ha & Hb & Hm). congruence.
    - rewrite P1, (nth_error_nth _ _ [] HN). destruct (map_protos N rename s2 (map old_field fs1) (new_proto N fs2)) as [m| |] eqn:EM; cbn [rbind]; auto.
      + split; auto. intros i k m' Hi. unfold upd in Hi. destruct (Nat.eqb_spec i s1) as [->|_]; [|eauto]. injection Hi as <- <-. eauto.
      + unfold map_protos in EM. rewrite mapM_map in EM.
        assert (C : forall x, In x fs1 -> (exists y, map_field N rename s2 (new_proto N fs2) (old_field x) = Ok y) \/ map_field N rename s2 (new_proto N fs2) (old_field x) = Throw IoError).
        { intros x Hx. pose proof (map_field_cases O N rename type_map HclN s1 fs1 x s2 fs2 HO HN Hknown Hx) as K. destruct (index_of (rename s2 (fst x)) fs2); [destruct K as (? & _ & [[_ K]|[_ K]])|]; eauto. }
        destruct (mapM_or _ _ _ C) as [[m Hm]|Hm]; rewrite Hm in EM; discriminate. }
  destruct (find_map N rename old_protos s2 s1 c1) as [[m c2]| |]; cbn [rbind]; auto. destruct K as [I2 EM]. destruct (mapped s1 s2 fs1 fs2 HO HN m EM) as [HM HC].
  assert (CP : forall A', Forall2 (field_read s2 fs2) fs1 A' -> compatible s1 s2).
  { intros A' F fs gs Hfs Hgs f Hin. rewrite HO in Hfs. rewrite HN in Hgs. injection Hfs as <-. injection Hgs as <-. destruct (index_of (rename s2 (fst f)) fs2) as [j|] eqn:Ej.
    - intros g Hg. eapply HM; eauto.
    - clear -F Hin Ej. induction F as [|x y fs A' H F IH]; [destruct Hin|]. destruct Hin as [->|Hin]; [unfold field_read in H; now rewrite Ej in H|auto]. }
  assert (K : m = [] /\ length fs1 = length fs2 /\ map (fun f => index_of (rename s2 (fst f)) fs2) fs1 = map Some (seq 0 (length fs1)) \/ m = map (fun f => index_of (rename s2 (fst f)) fs2) fs1 /\ m <> []).
  { destruct HC as [HC|HC]; auto. right. split; auto. rewrite HC. intros X. apply map_eq_nil in X. subst fs1. apply (Hne [] (nth_error_In _ _ HO) eq_refl). }
  destruct K as [(-> & T1 & T2)|[K1 K2]].
  - pose proof (get_each_LK s1 s2 fs1 fs2 f0 HO HN HS HM bl As ds T1 T2 L1 L2 HP G rest c2 I2 ltac:(lia)) as X. destruct (get_each _ _ _) as [[l [s c3]]| |]; auto. destruct X as (-> & I3 & X1 & X2). repeat split; eauto.
  - destruct m as [|o m'] eqn:Em; [congruence|]. rewrite K1, P1.
    pose proof (read_mapped_LK s1 s2 fs1 fs2 f0 HO HN HS HM fs1 bl As ltac:(auto) L1 L2 HP ds rest c2 I2 G Lt) as X. destruct (read_mapped _ _ _ _ _ _ _ _) as [[l [s c3]]| |]; auto.
    destruct X as (-> & I3 & X1 & X2). repeat split; eauto.
Qed.

(** ** Everything that is written *)
Lemma chunk_int w b : length b = w -> chunk (LInt w) b (fun _ => True).
Proof.
  intros Hw u d f Hu HS HD. destruct u as [sg w'| |sg w' c|cw|k|u|n u|u|cap u|c u|c k u|us|us|s fs].
  all: simpl in Hu.
  all: try discriminate Hu.
  - injection Hu as ->. cbn [CodecModel.read]. apply (LK_map f _ VInt _ (fun _ => True)); [now apply LK_int|]. cbn. auto.
  - injection Hu as <-. cbn [CodecModel.read]. apply (LK_map f _ (fun z => VBool (negb (z =? 0))) _ (fun _ => True)); [now apply LK_int|]. cbn. auto.
  - injection Hu as ->. cbn [CodecModel.read]. rewrite <- (app_nil_r b). eapply (LK_bind f _ _ b [] (fun _ => True)); [now apply LK_int|]. intros z _.
    destruct (bad_enum c z); [apply LK_throw|apply LK_ret]. cbn. auto.
  - injection Hu as <-. cbn [CodecModel.read]. apply (LK_map f _ (fun z => VInt (Z.quot z k)) _ (fun _ => True)); [now apply LK_int|]. cbn. auto.
  - destruct u; discriminate.
  - destruct u; discriminate.
Qed.
Lemma put_list_pieces w l : forall bs, put_list w l = Ok bs -> exists bl, bs = concat bl /\ Forall2 (fun x b => w x = Ok b) l bl.
Proof.
  induction l as [|x l IH]; intros bs H; cbn [put_list] in H; [apply ok_inj in H; subst; exists []; auto|].
  destruct (w x) as [a| |] eqn:Ea; cbn [rbind] in H; try discriminate. destruct (put_list w l) as [b| |]; cbn [rbind] in H; try discriminate. apply ok_inj in H. subst.
  destruct (IH _ eq_refl) as (bl & -> & F). exists (a :: bl). cbn [concat]. auto.
Qed.
Lemma put_each_pieces ws : forall l bs, put_each ws l = Ok bs -> exists bl, bs = concat bl /\ length bl = length ws /\ length l = length ws /\
  forall i w x b, nth_error ws i = Some w -> nth_error l i = Some x -> nth_error bl i = Some b -> w x = Ok b.
Proof.
  induction ws as [|w ws IH]; intros [|x l] bs H; cbn [put_each] in H; try discriminate; [apply ok_inj in H; subst; exists []; repeat split; auto; intros [|i]; discriminate|].
  destruct (w x) as [a| |] eqn:Ea; cbn [rbind] in H; try discriminate. destruct (put_each ws l) as [b| |] eqn:Eb; cbn [rbind] in H; try discriminate. apply ok_inj in H. subst.
  destruct (IH _ _ Eb) as (bl & -> & L1 & L2 & F). exists (a :: bl). cbn [concat length]. repeat split; auto.
  intros [|i] w' x' b' X1 X2 X3; cbn in *; [congruence|eauto].
Qed.
Lemma F2_length {A B} (R : A -> B -> Prop) l m : Forall2 R l m -> length l = length m.
Proof. induction 1; cbn; auto. Qed.
Lemma F2_nth {A B} (R : A -> B -> Prop) l m : Forall2 R l m -> forall i x y, nth_error l i = Some x -> nth_error m i = Some y -> R x y.
Proof. induction 1; intros [|i] a b X1 X2; cbn in *; try discriminate; [congruence|eauto]. Qed.
Lemma F2_of_nth {A B} (R : A -> B -> Prop) l : forall m, length l = length m -> (forall i x y, nth_error l i = Some x -> nth_error m i = Some y -> R x y) -> Forall2 R l m.
Proof. induction l as [|x l IH]; intros [|y m] L H; cbn in L; try lia; constructor; [now apply (H 0%nat)|]. apply IH; [lia|]. intros i. apply (H (S i)). Qed.
Lemma combine_nth_error {A B} (l : list A) : forall (m : list B) i x y, nth_error l i = Some x -> nth_error m i = Some y -> nth_error (combine l m) i = Some (x, y).
Proof. induction l as [|a l IH]; intros [|b m] [|i] x y H1 H2; cbn in *; try discriminate; [congruence|auto]. Qed.
(** What the readers of a value establish *)
Definition agreed (t : ty) (v : val) (u : ty) : Prop := forall p q, meets rename t v u p q -> compatible p q.
Definition CH (t : ty) : Prop := in_schema O t -> forall v bs, has_ty E t v -> write t v = Ok bs -> chunk (layout_of t) bs (agreed t v) /\ (is_struct t = true -> skips None bs).
Lemma list_chunks t l bl : CH t -> in_schema O t -> Forall (has_ty E t) l -> Forall2 (fun x b => write t x = Ok b) l bl -> Forall2 (chunk (layout_of t)) bl (map (agreed t) l).
Proof.
  intros H HS HF F. induction F as [|x b l bl Hb F IH]; cbn [map]; constructor; inversion HF; subst; auto. now apply (H HS x b).
Qed.
Lemma agreed_elements t a l u : elem t = Some a -> Forall (fun A => A (elem_ty u)) (map (agreed a) l) -> agreed t (VList l) u.
Proof.
  intros Ht F p q M. rewrite Forall_map in F. rewrite Forall_forall in F. inversion M; subst; try discriminate.
  match goal with X : elem t = Some ?b |- _ => rewrite Ht in X; injection X as <- end. 
  match goal with X : In ?x l |- _ => eapply (F x X) end. destruct u; cbn in *; try discriminate; match goal with X : Some _ = Some _ |- _ => injection X as <- end; eauto.
Qed.
Lemma agreed_leaf t v u : match t with TInt _ _ | TBool | TEnum _ _ _ | TStr _ | TTime _ => True | _ => False end -> agreed t v u.
Proof. intros H p q M. inversion M; subst; try contradiction. destruct t; contradiction || discriminate. Qed.
Theorem chunks t : CH t.
Proof.
  induction t using ty_ind'; intros HS v bs HT W; cbn [in_schema] in HS.
  - (* int *) split; [|discriminate]. destruct v; try contradiction. cbn [CodecModel.write] in W. apply ok_inj in W. subst. eapply chunk_impl; [apply chunk_int, put_int_length|]. intros; now apply agreed_leaf.
  - split; [|discriminate]. destruct v; try contradiction. cbn [CodecModel.write] in W. apply ok_inj in W. subst. eapply chunk_impl; [now apply chunk_int|]. intros; now apply agreed_leaf.
  - split; [|discriminate]. destruct v; try contradiction. cbn [CodecModel.write] in W. destruct (bad_enum c z); [discriminate|]. apply ok_inj in W. subst. eapply chunk_impl; [apply chunk_int, put_int_length|]. intros; now apply agreed_leaf.
  - (* string *) split; [|discriminate]. destruct v; try contradiction. cbn [CodecModel.write] in W. destruct (over_limit _ _); [discriminate|]. apply ok_inj in W. subst. destruct HT as (_ & [HL _] & _).
    replace (put_size (length l)) with (put_size (length (map (put_int w) l))) by now rewrite map_length.
    eapply chunk_impl; [apply (chunk_seq (LInt w) (map (put_int w) l) (map (fun _ _ => True) l)); [|now rewrite map_length]|intros; now apply agreed_leaf].
    clear. induction l; cbn [map]; constructor; auto. apply chunk_int, put_int_length.
  - (* time *) split; [|discriminate]. destruct v; try contradiction. cbn [CodecModel.write] in W. unfold guard in W. destruct (_ && _); [|discriminate]. apply ok_inj in W. subst. eapply chunk_impl; [apply chunk_int, put_int_length|]. intros; now apply agreed_leaf.
  - (* optional *) split; [|discriminate]. intros u d f Hu HSu HD. destruct u as [| | | | |u|n u|u| | | | | |]; simpl in Hu; try discriminate Hu; try (destruct u; discriminate). injection Hu as Hu.
    destruct v; try contradiction; cbn [CodecModel.write CodecModel.read] in *.
    + apply ok_inj in W. subst. change [0] with ([0] ++ []). eapply (LK_bind f (get_int vraw false 1)); [apply LK_byte; lia|]. cbv beta. intros z ->. cbn [Z.eqb]. apply LK_ret. split; [exact I|]. intros p q M. inversion M; subst; discriminate.
    + destruct (write t v) as [b| |] eqn:Eb; cbn [rbind] in W; try discriminate. apply ok_inj in W. subst. change (1 :: b) with ([1] ++ b).
      eapply (LK_bind f (get_int vraw false 1)); [apply LK_byte; lia|]. cbv beta. intros z ->. cbn [Z.eqb]. destruct (IHt HS v b HT Eb) as [C _]. cbn [in_schema] in HSu.
      eapply (LK_map f _ VSome); [apply (C u (default E u) f Hu HSu (sized_default u HSu))|]. cbv beta. intros x [_ A]. split; [exact I|]. intros p q M. inversion M; subst; try discriminate. now apply A.
  - (* array *) split; [|discriminate]. destruct v; try contradiction. destruct HT as [HL HT]. cbn [CodecModel.write] in W. intros u d f Hu HSu HD.
    assert (TB : t = TBool \/ t <> TBool) by (destruct t; auto; right; discriminate). destruct TB as [->|NB].
    + simpl in Hu. destruct u as [| | | | |u|m u|u| | | | | |]; simpl in Hu; try discriminate Hu; destruct u; try discriminate Hu. injection Hu as ->. cbn [put_elems] in W. apply ok_inj in W. subst. cbn [sized] in HD. destruct HD as [HD1 HD2].
      cbn [CodecModel.read get_elems]. rewrite HD1. replace (length l) with (length (map as_bool l)) by apply map_length.
      eapply LK_ext with (r := fun s => let* (l, r) := (let* (l0, s1) := get_bits vraw (length (map as_bool l)) (length (map as_bool l)) s in Ok (map VBool l0, s1)) in Ok (VList l, r)); [reflexivity|].
      eapply (LK_map f _ VList); [eapply (LK_map f _ (map VBool)); [apply LK_bits|]|].
      * cbv beta. intros l' L'. instantiate (1 := fun l' => length l' = length l). cbv beta. rewrite map_length. rewrite map_length in L'. exact L'.
      * cbv beta. intros l' L'. cbn [sized as_list]. split; [split; [rewrite map_length; exact L'|apply Forall_forall; cbn; auto]|]. intros p q M. inversion M; subst; try discriminate. exfalso. match goal with X : meets _ TBool _ _ _ _ |- _ => inversion X; discriminate end.
    + assert (Q : layout_of (TArr n t) = LArr n (layout_of t)) by (destruct t; auto; congruence). rewrite Q in Hu.
      destruct u as [| | | | |u|m u|u| | | | | |]; simpl in Hu; try discriminate Hu; try (destruct u; discriminate Hu). assert (Q2 : m = n /\ layout_of u = layout_of t /\ u <> TBool) by (destruct u; try discriminate Hu; injection Hu as -> <-; repeat split; auto; discriminate).
      destruct Q2 as (-> & QL & NU). cbn [in_schema sized] in HSu, HD. destruct HD as [HD1 HD2].
      assert (W' : put_list (write t) l = Ok bs) by (destruct t; auto; congruence). apply put_list_pieces in W' as (bl & -> & F). pose proof (F2_length _ _ _ F) as LB.
      cbn [CodecModel.read]. eapply (LK_map f _ VList).
      * eapply LK_ext with (r := get_list (read f u) (as_list d)); [intros s; destruct u; try reflexivity; congruence|].
        eapply (LK_list (layout_of t) f u QL HSu bl); [eapply list_chunks; eauto| |auto]. lia.
      * cbv beta. intros l' (X1 & X2 & X3). cbn [sized as_list]. split; [split; [lia|auto]|]. rewrite Forall_map, Forall_forall in X3. intros p q M. inversion M; subst; try discriminate. eapply X3; eauto.
  - (* vector *) split; [|discriminate]. destruct v; try contradiction. destruct HT as [HT [Hn _]]. cbn [CodecModel.write] in W. 
    assert (TB : t = TBool \/ t <> TBool) by (destruct t; auto; right; discriminate). destruct TB as [->|NB].
    + intros u d f Hu HSu HD. destruct u as [| | | | |u|m u|u| | | | | |]; simpl in Hu; try discriminate Hu; destruct u; try discriminate Hu. cbn [put_elems rbind] in W. apply ok_inj in W. subst.
      cbn [CodecModel.read]. eapply LK_bind; [now apply LK_size|]. cbv beta. intros z ->. match goal with |- LK _ (fun s1 => if ?x then _ else _) _ _ => destruct x end; [apply LK_throw|]. rewrite Nat2Z.id.
      cbn [sized] in HD. destruct (sized_resize TBool (length l) (as_list d) I HD) as [_ F2]. cbn [get_elems]. rewrite F2. rewrite <- (map_length as_bool l).
      eapply LK_ext with (r := fun s => let* (l, r) := (let* (l0, s1) := get_bits vraw (length (map as_bool l)) (length (map as_bool l)) s in Ok (map VBool l0, s1)) in Ok (VList l, r)); [reflexivity|].
      eapply (LK_map f _ VList); [eapply (LK_map f _ (map VBool)); [apply LK_bits|]|].
      * cbv beta. intros l' L'. instantiate (1 := fun l' => True). exact I.
      * cbv beta. intros l' _. cbn [sized as_list]. split; [apply Forall_forall; cbn; auto|]. intros p q M. inversion M; subst; try discriminate. exfalso.
        repeat match goal with X : elem (TVec TBool) = Some _ |- _ => injection X as <- end. match goal with X : meets _ TBool _ _ _ _ |- _ => inversion X; discriminate end.
    + assert (Q : layout_of (TVec t) = LSeq (layout_of t)) by (destruct t; auto; congruence). rewrite Q.
      replace (put_elems t (write t) l) with (put_list (write t) l) in W by (destruct t; auto; congruence). destruct (put_list (write t) l) as [b| |] eqn:Eb; cbn [rbind] in W; try discriminate. apply ok_inj in W. subst.
      apply put_list_pieces in Eb as (bl & -> & F). pose proof (F2_length _ _ _ F) as LB. rewrite LB in *. eapply chunk_impl; [apply chunk_seq; [eapply list_chunks; eauto|auto]|]. cbv beta. intros u. now apply agreed_elements.
  - (* deque *) split; [|discriminate]. destruct v; try contradiction. destruct HT as (HT & Hn & _). cbn [CodecModel.write layout_of] in *. destruct (put_list (write t) l) as [b| |] eqn:Eb; cbn [rbind] in W; try discriminate. apply ok_inj in W. subst.
    apply put_list_pieces in Eb as (bl & -> & F). pose proof (F2_length _ _ _ F) as LB. rewrite LB in *. eapply chunk_impl; [apply chunk_seq; [eapply list_chunks; eauto|auto]|]. cbv beta. intros u. now apply agreed_elements.
  - (* set *) split; [|discriminate]. destruct v; try contradiction. destruct HT as (HT & Hn & _). cbn [CodecModel.write layout_of] in *. destruct (put_list (write t) l) as [b| |] eqn:Eb; cbn [rbind] in W; try discriminate. apply ok_inj in W. subst.
    apply put_list_pieces in Eb as (bl & -> & F). pose proof (F2_length _ _ _ F) as LB. rewrite LB in *. eapply chunk_impl; [apply chunk_seq; [eapply list_chunks; eauto|auto]|]. cbv beta. intros u. now apply agreed_elements.
  - (* map *) split; [|discriminate]. destruct v; try contradiction. destruct HT as (HT & Hn & _). destruct HS as [HS1 HS2]. cbn [CodecModel.write layout_of] in *. destruct (put_list _ l) as [b| |] eqn:Eb; cbn [rbind] in W; try discriminate. apply ok_inj in W. subst.
    apply put_list_pieces in Eb as (bl & -> & F). pose proof (F2_length _ _ _ F) as LB. rewrite LB in *.
    set (PA := fun (p : val) (u : ty) => match p, u with VPair x y, TTuple [a; b] => agreed t1 x a /\ agreed t2 y b | _, _ => True end).
    assert (FC : Forall2 (chunk (LTup [layout_of t1; layout_of t2])) bl (map PA l)).
    { clear Hn LB. induction F as [|x b l bl Hb F IH]; cbn [map]; constructor; inversion HT; subst; auto. destruct x; try contradiction. match goal with X : _ /\ _ |- _ => destruct X as [X1 X2] end.
      destruct (write t1 x1) as [b1| |] eqn:E1; cbn [rbind] in Hb; try discriminate. destruct (write t2 x2) as [b2| |] eqn:E2; cbn [rbind] in Hb; try discriminate. apply ok_inj in Hb. subst b.
      destruct (IHt1 HS1 x1 b1 X1 E1) as [C1 _]. destruct (IHt2 HS2 x2 b2 X2 E2) as [C2 _].
      intros u d f Hu HSu HD. destruct u as [| | | | |u|m u|u| | | | |us|]; simpl in Hu; try discriminate Hu; try (destruct u; discriminate Hu). injection Hu as Hu. cbn [in_schema sized] in *. cbn [CodecModel.read].
      assert (Q : b1 ++ b2 = concat [b1; b2]) by (cbn; now rewrite app_nil_r). rewrite Q.
      eapply (LK_map f _ VTup); [eapply (LK_tuple f us _ [b1; b2] [agreed t1 x1; agreed t2 x2] Hu HSu); auto|].
      - intros [|[|[|i]]] ll bb AA Y1 Y2 Y3; cbn in Y1, Y2, Y3; try discriminate; injection Y1 as <-; injection Y2 as <-; injection Y3 as <-; auto.
      - cbv beta. intros l' [Z1 Z2]. cbn [as_list]. split; auto. inversion Z2 as [|? ? ? ? K1 K2]; subst. inversion K2 as [|? ? ? ? K3 K4]; subst. inversion K4; subst. cbn. auto. }
    eapply chunk_impl; [apply chunk_seq; [exact FC|auto]|]. cbv beta. intros u FA p q M. rewrite Forall_map, Forall_forall in FA. inversion M; subst; try discriminate.
    all: match goal with X : In (VPair _ _) _ |- _ => specialize (FA _ X) end; cbn in FA; destruct FA as [FA1 FA2]; eauto.
  - (* variant *) split; [|discriminate]. destruct HS as [HS Hn]. destruct v as [| | | | | | |i v|]; try contradiction. cbn [has_ty CodecModel.write] in *. rewrite nth_error_map in *. destruct (nth_error ts i) as [t|] eqn:Et; [|contradiction]. cbn [option_map] in *.
    destruct (write t v) as [b| |] eqn:Eb; cbn [rbind] in W; try discriminate. apply ok_inj in W. subst. pose proof (nth_error_In _ _ Et) as It. rewrite Forall_forall in H. destruct (H t It (in_all _ _ _ HS It) v b HT Eb) as [C _].
    intros u d f Hu HSu HD. destruct u as [| | | | |u|m u|u| | | |us| |]; simpl in Hu; try discriminate Hu; try (destruct u; discriminate Hu). injection Hu as Hu. cbn [in_schema] in HSu. destruct HSu as [HSu _].
    assert (Li : (i < length ts)%nat) by (apply nth_error_Some; congruence). assert (Lu : length us = length ts) by (rewrite <- (map_length layout_of us), Hu; apply map_length).
    destruct (nth_error us i) as [a|] eqn:Ea; [|apply nth_error_None in Ea; lia].
    assert (La : layout_of a = layout_of t). { assert (X : nth_error (map layout_of us) i = nth_error (map layout_of ts) i) by now rewrite Hu. rewrite !nth_error_map, Ea, Et in X. now injection X. }
    cbn [CodecModel.read]. eapply LK_bind; [apply LK_size; unfold small in *; lia|]. cbv beta. intros z ->. replace (Z.of_nat (length us) <=? Z.of_nat i) with false by lia. rewrite Nat2Z.id, nth_error_map, Ea. cbn [option_map].
    assert (Sa : in_schema N a) by (apply (in_all _ _ _ HSu); eapply nth_error_In; eauto).
    eapply (LK_map f _ (VVar i)); [apply (C a (default E a) f La Sa (sized_default a Sa))|]. cbv beta. intros x [_ A]. split; [exact I|]. intros p q M. inversion M; subst; try discriminate. replace b0 with a in * by congruence. replace a0 with t in * by congruence. now apply A.
  - (* tuple *) split; [|discriminate]. destruct v as [| | | | | | | |l]; try contradiction. cbn [CodecModel.write] in W. apply put_each_pieces in W as (bl & -> & L1 & L2 & F). rewrite map_length in *.
    intros u d f Hu HSu HD. destruct u as [| | | | |u|m u|u| | | | |us|]; simpl in Hu; try discriminate Hu; try (destruct u; discriminate Hu). injection Hu as Hu. cbn [in_schema sized] in *. cbn [CodecModel.read].
    eapply (LK_map f _ VTup); [eapply (LK_tuple f us _ bl (map (fun _ _ => True) l) Hu HSu); auto; rewrite ?map_length; auto|].
    + intros i ll b A X1 X2 X3. rewrite nth_error_map in X1. destruct (nth_error ts i) as [t|] eqn:Et; [|discriminate]. injection X1 as <-. rewrite nth_error_map in X3. destruct (nth_error l i) as [x|] eqn:Ex; [|discriminate]. injection X3 as <-.
      rewrite Forall_forall in H. pose proof (nth_error_In _ _ Et) as It. eapply chunk_impl; [eapply (H t It (in_all _ _ _ HS It) x b)|auto].
      * apply (each_nth _ _ i _ _ HT); [now rewrite nth_error_map, Et|auto].
      * apply (F i); auto. now rewrite nth_error_map, Et.
    + cbv beta. intros l' [X1 _]. split; auto. intros p q M. inversion M; subst; discriminate.
  - (* struct *) destruct HS as [HO HS]. destruct v as [| | | | | | | |l]; try contradiction. cbn [CodecModel.write] in W. destruct (put_each _ l) as [b| |] eqn:Eb; cbn [rbind] in W; try discriminate. apply ok_inj in W. subst.
    apply put_each_pieces in Eb as (bl & -> & L1 & L2 & F). rewrite map_length in *. rewrite (map_snd (in_schema O)) in HS. rewrite Forall_forall in H. pose proof (nth_error_In _ _ HO) as I1.
    assert (HP : forall i f b A, nth_error fs i = Some f -> nth_error bl i = Some b -> nth_error (map (fun p => agreed (snd (fst p)) (snd p)) (combine fs l)) i = Some A -> piece f b A).
    { intros i f b A X1 X2 X3. rewrite nth_error_map in X3. assert (Li : (i < length fs)%nat) by (apply nth_error_Some; congruence). destruct (nth_error l i) as [x|] eqn:Ex; [|apply nth_error_None in Ex; lia].
      rewrite (combine_nth_error _ _ _ _ _ X1 Ex) in X3. injection X3 as <-. cbn [fst snd]. pose proof (nth_error_In _ _ X1) as If.
      destruct (H f If (in_all _ _ _ HS (in_map _ _ _ If)) x b) as [C K].
      - apply (each_nth _ _ i _ _ HT); [now rewrite nth_error_map, X1|auto].
      - apply (F i); auto. now rewrite nth_error_map, X1.
      - split; auto. destruct (is_struct (snd f)) eqn:S1; [rewrite otype_struct; auto|]. eapply chunk_skips; eauto. }
    assert (LA : length (map (fun p => agreed (snd (fst p)) (snd p)) (combine fs l)) = length fs) by (rewrite map_length, combine_length; lia).
    split.
    + intros u d f Hu HSu HD. destruct u as [| | | | |u|m u|u| | | | | |s2 gs]; simpl in Hu; try discriminate Hu; try (destruct u; discriminate Hu). cbn [in_schema] in HSu. destruct HSu as [HN HSu]. cbn [CodecModel.read sized] in *.
      eapply (LK_map f _ VTup); [eapply (hook_LK sid s2 fs gs f bl _ (as_list d) HO HN HSu L1 LA HP HD)|]. cbv beta. intros l' (X1 & X2 & X3). split; auto.
      intros p q M. inversion M; subst; try discriminate; auto.
      match goal with X1 : nth_error fs i = Some (?n, ?a), X2 : nth_error l i = Some ?x |- _ =>
        pose proof (F2_nth _ _ _ X3 i (n, a) (agreed a x) X1) as K; rewrite nth_error_map, (combine_nth_error _ _ _ _ _ X1 X2) in K; specialize (K eq_refl) end.
      unfold field_read in K. cbn [fst] in K. match goal with X : index_of _ gs = Some j |- _ => rewrite X in K end. destruct K as (g & Hg & A).
      match goal with X : nth_error gs j = Some _ |- _ => rewrite X in Hg; injection Hg as <- end. now apply A.
    + intros _ f rest c I L. destruct f as [|f]; [lia|]. cbn [VtsModel.skip]. rewrite <- app_assoc in *.
      pose proof (LK_index (S f) sid fs HO (concat bl ++ rest) c I ltac:(lia)) as RI. destruct (read_index old_protos _) as [[i [s c1]]| |]; cbn [rbind]; auto. destruct RI as (-> & I2 & ->).
      replace (nth sid old_protos []) with (map old_field fs) by (symmetry; apply nth_error_nth; unfold VtsProofs.old_protos; now rewrite nth_error_map, HO).
      apply skip_all_LK; auto.
      * apply F2_of_nth; [lia|]. intros i f' b X1 X2. destruct (nth_error l i) as [x|] eqn:Ex; [|apply nth_error_None in Ex; assert (i < length fs)%nat by (apply nth_error_Some; congruence); lia].
        apply (HP i f' b (agreed (snd f') x)); auto. now rewrite nth_error_map, (combine_nth_error _ _ _ _ _ X1 Ex).
      * rewrite app_length in L. unfold struct_index in L. rewrite put_int_length in L. lia.
Qed.
End Any.
