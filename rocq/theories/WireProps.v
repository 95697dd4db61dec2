(** The format of serialized data (C66). *)
From Coq Require Import ZifyBool ZifyNat.
From Verif Require Import Common Int2ArrayModel Int2ArrayProps CodecModel CodecSpec CodecProofs CodecLocal CodecProps VtsModel VtsSpec VtsProofs VtsEvolve VtsProps.
From Verif Require Import HashStreamModel HashStreamSpec HashStreamProofs PersistModel PersistSpec PersistProofs PersistProps WireSpec.
Local Open Scope Z_scope.
Local Notation length := List.length.

(** ** Integers *)
Lemma le_value_app a b : le_value (a ++ b) = le_value a + 256 ^ Z.of_nat (length a) * le_value b.
Proof.
  induction a as [|x a IH]; cbn [app le_value length]; [change (256 ^ Z.of_nat 0) with 1; lia|]. rewrite IH. replace (Z.of_nat (S (length a))) with (Z.of_nat (length a) + 1) by lia. rewrite Z.pow_add_r by lia. ring.
Qed.
Lemma le_be a : le_value (rev a) = be_value a.
Proof. induction a as [|x a IH]; cbn [rev be_value]; auto. rewrite le_value_app, IH, rev_length. cbn [le_value]. ring. Qed.
Lemma put_int_le w z : le w z (put_int w z).
Proof.
  destruct (to_array_big_endian w z) as (A & B & C). unfold put_int. split; [now rewrite rev_length|]. split; [|now rewrite le_be].
  apply Forall_rev. exact B.
Qed.
Lemma le_inj a : forall b, length a = length b -> Forall byte a -> Forall byte b -> le_value a = le_value b -> a = b.
Proof.
  induction a as [|x a IH]; intros [|y b] L Ha Hb V; try discriminate; auto. inversion Ha as [|? ? X1 X2]; inversion Hb as [|? ? Y1 Y2]; subst. cbn [le_value] in V. unfold byte in *.
  assert (x = y) by lia. subst y. f_equal. apply IH; auto; lia.
Qed.
Lemma le_unique w z a b : le w z a -> le w z b -> a = b.
Proof. intros (A1 & A2 & A3) (B1 & B2 & B3). apply le_inj; auto; congruence. Qed.

(** ** Parts *)
Definition unique {A} (p : A -> bytes -> Prop) (x : A) : Prop := forall a b, p x a -> p x b -> a = b.
Lemma parts_unique {A} (p : A -> bytes -> Prop) l : Forall (unique p) l -> unique (parts p) l.
Proof.
  intros H a b (ps & -> & F) (qs & -> & G). f_equal. revert ps qs F G. induction H as [|x l Hx H IH]; intros ps qs F G; inversion F; inversion G; subst; auto. f_equal; auto.
Qed.
Lemma counted_unique {A} (p : list A -> bytes -> Prop) l : unique p l -> unique (counted p) l.
Proof. intros H a b (x & y & -> & L & P) (x' & y' & -> & L' & P'). f_equal; [eapply le_unique; eauto|now apply H]. Qed.
Lemma fields_unique ps : Forall (fun p : val -> bytes -> Prop => forall v, unique p v) ps -> forall l, unique (fields ps) l.
Proof.
  induction 1 as [|p ps Hp H IH]; intros [|v l] a b; cbn [fields]; try contradiction; [congruence|]. intros (x & y & -> & P & Q) (x' & y' & -> & P' & Q'). f_equal; [eapply Hp; eauto|eapply IH; eauto].
Qed.

(** ** Bits *)
Lemma testbit_pack l : forall i, Z.testbit (pack l) (Z.of_nat i) = nth i l false.
Proof.
  induction l as [|b l IH]; intros [|i]; cbn [pack nth]; try apply Z.bits_0.
  - rewrite Z.add_comm. apply Z.testbit_0_r.
  - rewrite Nat2Z.inj_succ, Z.add_comm, Z.testbit_succ_r by lia. apply IH.
Qed.
Lemma pack_bound l : 0 <= pack l < 2 ^ Z.of_nat (length l).
Proof.
  induction l as [|b l IH]; cbn [pack length]; [cbn; lia|]. replace (Z.of_nat (S (length l))) with (Z.of_nat (length l) + 1) by lia. rewrite Z.pow_add_r by lia. destruct b; cbn [Z.b2z]; lia.
Qed.
Lemma pack_byte l : (length l <= 8)%nat -> byte (pack l).
Proof. intros L. pose proof (pack_bound l). unfold byte. assert (2 ^ Z.of_nat (length l) <= 2 ^ 8) by (apply Z.pow_le_mono_r; lia). lia. Qed.
Lemma put_bits_ok f : forall l, (length l <= f)%nat -> bits l (put_bits f l).
Proof.
  induction f as [|f IH]; intros l L.
  - destruct l; [|cbn in L; lia]. split; [reflexivity|]. split; [constructor|]. intros i. cbn [put_bits]. destruct (Nat.div i 8), i; cbn [nth]; apply Z.bits_0.
  - destruct l as [|b0 l0]; [split; [reflexivity|]; split; [constructor|]; intros i; cbn [put_bits]; destruct (Nat.div i 8), i; cbn [nth]; apply Z.bits_0|].
    remember (b0 :: l0) as l eqn:El. assert (E : put_bits (S f) l = pack (firstn 8 l) :: put_bits f (skipn 8 l)) by (subst l; reflexivity). rewrite E.
    assert (Ln : (0 < length l)%nat) by (subst l; cbn; lia). destruct (IH (skipn 8 l)) as (A & B & C); [rewrite skipn_length; lia|]. split; [|split].
    + cbn [length]. rewrite A, skipn_length. destruct (Nat.le_gt_cases (length l) 8) as [K|K].
      * replace (length l - 8)%nat with 0%nat by lia. change (Nat.div (0 + 7) 8) with 0%nat. apply Nat.div_unique with (length l - 1)%nat; lia.
      * replace (length l + 7)%nat with ((length l - 8 + 7) + 1 * 8)%nat by lia. rewrite Nat.div_add by lia. lia.
    + constructor; auto. apply pack_byte. rewrite firstn_length. lia.
    + intros i. destruct (Nat.lt_ge_cases i 8) as [K|K].
      * rewrite Nat.div_small, Nat.mod_small by lia. cbn [nth]. rewrite testbit_pack. rewrite <- (firstn_skipn 8 l) at 2. destruct (Nat.lt_ge_cases i (length (firstn 8 l))) as [M|M].
        -- now rewrite app_nth1.
        -- rewrite (nth_overflow (firstn 8 l)) by lia. rewrite firstn_length in M. rewrite nth_overflow; auto. rewrite app_length, skipn_length, firstn_length. lia.
      * specialize (C (i - 8)%nat). replace i with ((i - 8) + 1 * 8)%nat at 1 2 by lia. rewrite Nat.div_add, Nat.mod_add by lia. rewrite Nat.add_1_r. cbn [nth]. rewrite C.
        rewrite <- (firstn_skipn 8 l) at 2. destruct (Nat.le_gt_cases (length l) 8) as [M|M].
        -- rewrite skipn_all2 by lia. rewrite app_nil_r, firstn_all2 by lia. rewrite (nth_overflow l) by lia. now destruct (i - 8)%nat.
        -- rewrite app_nth2; rewrite firstn_length; [|lia]. f_equal. lia.
Qed.
Lemma byte_high b n : byte b -> 8 <= n -> Z.testbit b n = false.
Proof. intros [H1 H2] Hn. destruct (Z.eq_dec b 0) as [->|N]; [apply Z.bits_0|]. apply Z.bits_above_log2; auto. assert (Z.log2 b < 8) by (apply Z.log2_lt_pow2; lia). lia. Qed.
Lemma bits_unique l a b : bits l a -> bits l b -> a = b.
Proof.
  intros (A1 & A2 & A3) (B1 & B2 & B3). apply nth_ext with 0 0; [congruence|]. intros q Hq. apply Z.bits_inj'. intros n Hn. destruct (Z.lt_ge_cases n 8) as [K|K].
  - set (i := (q * 8 + Z.to_nat n)%nat). assert (Dq : Nat.div i 8 = q) by (symmetry; apply Nat.div_unique with (Z.to_nat n); unfold i; lia). assert (Mq : Nat.modulo i 8 = Z.to_nat n) by (symmetry; apply Nat.mod_unique with q; unfold i; lia).
    specialize (A3 i). specialize (B3 i). rewrite Dq, Mq, Z2Nat.id in * by lia. congruence.
  - rewrite !byte_high; auto; [|eapply Forall_forall; [exact A2|apply nth_In; lia]]. eapply Forall_forall; [exact B2|apply nth_In; lia].
Qed.

(** ** Values *)
Section Mark.
Context (mark : nat -> bytes -> Prop) (Hu : forall sid, unique mark sid).
Lemma vbool_inj l m : map VBool l = map VBool m -> l = m.
Proof. revert m. induction l as [|x l IH]; intros [|y m] H; try discriminate; auto. injection H as -> H. f_equal; auto. Qed.
Lemma image_unique t : forall v, unique (image mark t) v.
Proof.
  revert t. assert (EL : forall t, (forall v, unique (image mark t) v) -> forall l, unique (fun l bs => match t with TBool => exists bl, l = map VBool bl /\ bits bl bs | _ => parts (image mark t) l bs end) l).
  { intros t Ht l a b. assert (K : Forall (unique (image mark t)) l) by (apply Forall_forall; auto). destruct t; try apply (parts_unique _ _ K).
    intros (l1 & -> & B1) (l2 & Hl & B2). apply vbool_inj in Hl. subst l2. eapply bits_unique; eauto. }
  assert (FA : forall p l, (forall v : val, unique p v) -> Forall (unique p) l) by (intros p l X; apply Forall_forall; auto).
  intros t. induction t using ty_ind'; intros v a b; destruct v; cbn [image]; try contradiction.
  - apply le_unique.
  - congruence.
  - apply le_unique.
  - apply counted_unique, parts_unique, Forall_forall. intros z _ x y. apply le_unique.
  - apply le_unique.
  - congruence.
  - intros (x & -> & X) (y & -> & Y). f_equal. eapply IHt; eauto.
  - apply (EL t IHt l).
  - apply (counted_unique _ l (EL t IHt l)).
  - apply counted_unique, parts_unique; auto.
  - apply counted_unique, parts_unique; auto.
  - apply counted_unique, parts_unique, FA. intros e x y (x1 & y1 & a1 & b1 & -> & -> & P1 & Q1) (x2 & y2 & a2 & b2 & Ee & -> & P2 & Q2). injection Ee as <- <-. f_equal; [eapply IHt1; eauto|eapply IHt2; eauto].
  - intros (a1 & b1 & -> & L1 & P1) (a2 & b2 & -> & L2 & P2). f_equal; [eapply le_unique; eauto|]. destruct (nth_error (map (image mark) ts) i) as [p|] eqn:E; [|contradiction]. apply nth_error_In, in_map_iff in E as (t & <- & Ht).
    rewrite Forall_forall in H. eapply (H t Ht); eauto.
  - apply fields_unique. apply Forall_map. exact H.
  - intros (a1 & b1 & -> & L1 & P1) (a2 & b2 & -> & L2 & P2). f_equal; [eapply Hu; eauto|]. eapply (fields_unique (map (fun f => image mark (snd f)) fs)); eauto. apply Forall_map. exact H.
Qed.

Context (E : env) (pre : nat -> bytes) (Hp : forall sid, mark sid (pre sid)).
Lemma put_list_parts (w : writer) (p : val -> bytes -> Prop) l : forall bs, (forall v b, In v l -> w v = Ok b -> p v b) -> put_list w l = Ok bs -> parts p l bs.
Proof.
  induction l as [|v l IH]; intros bs H W; cbn [put_list] in W.
  - apply ok_inj in W. subst. exists []. split; auto.
  - destruct (w v) as [a| |] eqn:Ea; try discriminate. cbn [rbind] in W. destruct (put_list w l) as [b| |] eqn:Eb; try discriminate. cbn [rbind] in W. apply ok_inj in W. subst bs.
    destruct (IH b) as (ps & -> & F); auto; [intros; apply H; auto; now right|]. exists (a :: ps). split; auto. constructor; auto. apply H; auto. now left.
Qed.
Lemma put_each_fields (ws : list writer) : forall (ps : list (val -> bytes -> Prop)) (hs : list (val -> Prop)) l bs, Forall2 (fun w ph => forall v b, (snd ph : val -> Prop) v -> w v = Ok b -> (fst ph : val -> bytes -> Prop) v b) ws (combine ps hs) ->
  length ps = length ws -> length hs = length ws -> each hs l -> put_each ws l = Ok bs -> fields ps l bs.
Proof.
  induction ws as [|w ws IH]; intros [|p ps] [|h hs] l bs F L1 L2 Hh W; try discriminate; destruct l as [|v l]; cbn [put_each fields each] in *; try contradiction; try discriminate.
  - apply ok_inj in W. auto.
  - cbn [combine] in F. inversion F as [|? ? ? ? F1 F2]; subst. cbn [fst snd] in F1. destruct Hh as [H1 H2]. destruct (w v) as [a| |] eqn:Ea; try discriminate. cbn [rbind] in W. destruct (put_each ws l) as [b| |] eqn:Eb; try discriminate. cbn [rbind] in W. apply ok_inj in W. subst bs.
    exists a, b. split; auto. split; [now apply F1|]. eapply IH; eauto.
Qed.
Lemma each_fields ts : forall l bs, Forall (fun t => forall v b, has_ty E t v -> write E pre t v = Ok b -> image mark t v b) ts ->
  each (map (has_ty E) ts) l -> put_each (map (write E pre) ts) l = Ok bs -> fields (map (image mark) ts) l bs.
Proof.
  intros l bs F Hh W. eapply put_each_fields; eauto; rewrite ?map_length; auto. clear -F. induction F; cbn; constructor; auto.
Qed.
Lemma vbools l : Forall (has_ty E TBool) l -> l = map VBool (map as_bool l).
Proof. induction 1 as [|v l Hv H IH]; cbn [map]; auto. destruct v; try contradiction. cbn [as_bool]. now f_equal. Qed.
Lemma write_image t : forall v bs, has_ty E t v -> write E pre t v = Ok bs -> image mark t v bs.
Proof.
  revert t. assert (EL : forall t, (forall v bs, has_ty E t v -> write E pre t v = Ok bs -> image mark t v bs) -> forall l bs, Forall (has_ty E t) l -> put_elems t (write E pre t) l = Ok bs ->
    match t with TBool => exists bl, l = map VBool bl /\ bits bl bs | _ => parts (image mark t) l bs end).
  { intros t Ht l bs Hl W. rewrite Forall_forall in Hl. assert (K : put_list (write E pre t) l = Ok bs -> parts (image mark t) l bs) by (apply put_list_parts; auto).
    destruct t; try (apply K; exact W). cbn [put_elems] in W. apply ok_inj in W. subst bs. exists (map as_bool l). split; [apply vbools, Forall_forall; auto|]. rewrite <- (map_length as_bool l). now apply put_bits_ok. }
  intros t. induction t using ty_ind'; intros v bs HT W; destruct v; cbn [has_ty] in HT; try contradiction; cbn [write] in W; cbn [image].
  - apply ok_inj in W. subst. apply put_int_le.
  - apply ok_inj in W. subst. now destruct b.
  - destruct (bad_enum _ _); try discriminate. apply ok_inj in W. subst. apply put_int_le.
  - destruct (over_limit _ _); try discriminate. apply ok_inj in W. subst. eexists _, _. split; [reflexivity|]. split; [apply put_int_le|]. exists (map (put_int w) l). split; auto. clear. induction l; constructor; auto. apply put_int_le.
  - unfold guard in W. destruct (_ && _); try discriminate. apply ok_inj in W. subst. apply put_int_le.
  - apply ok_inj in W. auto.
  - destruct (write E pre t v) as [b| |] eqn:Eb; try discriminate. cbn [rbind] in W. apply ok_inj in W. subst. exists b. split; auto.
  - apply (EL t IHt l bs); auto. apply HT.
  - destruct (put_elems _ _ _) as [b| |] eqn:Eb; try discriminate. cbn [rbind] in W. apply ok_inj in W. subst. eexists _, _. split; [reflexivity|]. split; [apply put_int_le|]. apply (EL t IHt l b); auto. apply HT.
  - destruct (put_list _ _) as [b| |] eqn:Eb; try discriminate. cbn [rbind] in W. apply ok_inj in W. subst. eexists _, _. split; [reflexivity|]. split; [apply put_int_le|]. destruct HT as (HF & _). rewrite Forall_forall in HF. eapply put_list_parts; eauto.
  - destruct (put_list _ _) as [b| |] eqn:Eb; try discriminate. cbn [rbind] in W. apply ok_inj in W. subst. eexists _, _. split; [reflexivity|]. split; [apply put_int_le|]. destruct HT as (HF & _). rewrite Forall_forall in HF. eapply put_list_parts; eauto.
  - destruct (put_list _ _) as [b| |] eqn:Eb; try discriminate. cbn [rbind] in W. apply ok_inj in W. subst. eexists _, _. split; [reflexivity|]. split; [apply put_int_le|]. destruct HT as (HF & _). rewrite Forall_forall in HF. eapply put_list_parts; [|exact Eb].
    cbv beta. intros e be Hin We. specialize (HF e Hin). destruct e as [| | | | | |x y| |]; try contradiction. destruct HF as [Hx Hy]. destruct (write E pre t1 x) as [bx| |] eqn:Ex; try discriminate. cbn [rbind] in We. destruct (write E pre t2 y) as [by_| |] eqn:Ey; try discriminate. cbn [rbind] in We. apply ok_inj in We. subst be.
    exists x, y, bx, by_. auto.
  - rewrite nth_error_map in *. destruct (nth_error ts i) as [t|] eqn:Et; cbn [option_map] in *; try contradiction. destruct (write E pre t v) as [b| |] eqn:Eb; try discriminate. cbn [rbind] in W. apply ok_inj in W. subst. eexists _, _. split; [reflexivity|]. split; [apply put_int_le|].
    rewrite Forall_forall in H. apply (H t); auto. eapply nth_error_In; eauto.
  - eapply each_fields; eauto.
  - destruct (put_each _ _) as [b| |] eqn:Eb; try discriminate. cbn [rbind] in W. apply ok_inj in W. subst. eexists _, _. split; [reflexivity|]. split; auto.
    replace (map (fun f => image mark (snd f)) fs) with (map (image mark) (map snd fs)) by (now rewrite map_map). eapply each_fields.
    + apply Forall_map. exact H.
    + rewrite map_map. exact HT.
    + rewrite map_map. exact Eb.
Qed.
End Mark.

(** ** Descriptions of programs *)
Lemma parts_map {A B} (f : A -> B) (p : B -> bytes -> Prop) (q : A -> bytes -> Prop) l bs : (forall x b, In x l -> p (f x) b -> q x b) -> parts p (map f l) bs -> parts q l bs.
Proof.
  intros H (ps & -> & F). exists ps. split; auto. revert ps F. induction l as [|x l IH]; intros ps F; cbn [map] in F; inversion F; subst; constructor; [apply H; auto; now left|]. apply IH; auto. intros; apply H; auto. now right.
Qed.
Lemma counted_map {A B} (f : A -> B) (p : list B -> bytes -> Prop) (q : list A -> bytes -> Prop) l bs : (forall b, p (map f l) b -> q l b) -> counted p (map f l) bs -> counted q l bs.
Proof. intros H (a & b & -> & L & P). rewrite map_length in L. exists a, b. auto. Qed.
Lemma type_code_position O f fs : closed O -> In fs (structs O) -> In f fs -> type_position O (snd f) (type_code (field_type O (snd f))).
Proof.
  intros HC H1 H2. assert (K : is_struct (snd f) = false -> exists k, type_code (find_first (ty_eqb (snd f)) (ftypes O)) = Z.of_nat k /\ nth_error (map type_name (ftypes O)) k = Some (type_name (snd f))).
  { intros Hs. pose proof (HC fs f H1 H2 Hs) as HI. pose proof (find_first_in (ty_eqb (snd f)) _ _ HI (ty_eqb_refl _)) as X.
    destruct (find_first (ty_eqb (snd f)) (ftypes O)) as [k|] eqn:Ek; [|congruence]. exists k. split; auto. apply find_first_some in Ek as (u & Hu & Q). rewrite nth_error_map, Hu. cbn. now rewrite (ty_eqb_name _ _ Q). }
  destruct f as [n t]. cbn [snd] in *. destruct t; cbn [type_position field_type]; auto.
Qed.
Lemma meta_description O h : closed O -> image unmarked meta_ty (meta_val O) h -> description O h.
Proof.
  intros HC I. cbn [meta_ty meta_val image map fields] in I. destruct I as (a & r & -> & Ia & b & r' & -> & Ib & ->). rewrite app_nil_r. exists a, b. split; auto. split.
  - revert Ia. apply counted_map. intros x. apply parts_map. auto.
  - revert Ib. apply counted_map. intros x. apply parts_map. intros fs y Hfs (y1 & y2 & -> & Iy & ->). rewrite app_nil_r. revert Iy. apply counted_map. intros z. apply parts_map.
    intros f g Hf (g1 & g2 & -> & Ig & g3 & g4 & -> & Ih & ->). rewrite app_nil_r. exists g1, g3, (type_code (field_type O (snd f))). split; auto. split; [exact Ig|]. split; [|exact Ih]. eapply type_code_position; eauto.
Qed.

(** ** Theorems *)
Section Props.
Context (E : env).
Lemma unmarked_unique sid : unique unmarked sid.
Proof. unfold unmarked. intros a b; congruence. Qed.
Lemma marked_unique sid : unique marked sid.
Proof. intros a b. apply le_unique. Qed.

(** The bytes of a value are its image, and there is only one. *)
Theorem wire_format t v bs : has_ty E t v -> (pwrite E t v = Ok bs <-> image unmarked t v bs).
Proof.
  intros HT. destruct (codec_write_total E t v HT) as (b & W & _). pose proof (write_image unmarked E (fun _ => []) (fun _ => eq_refl) t v b HT W) as I. rewrite W. split.
  - intros X. apply ok_inj in X. now subst.
  - intros X. f_equal. eapply image_unique; eauto. apply unmarked_unique.
Qed.
(** An image is read as its value, whoever has written it. *)
Theorem wire_read t v bs rest : wf_ty E t -> has_ty E t v -> image unmarked t v bs -> pread E t (default E t) (bs ++ rest) = Ok (v, rest).
Proof. intros Hw HT I. apply codec_round_trip_default; auto. now apply wire_format. Qed.
(** Different values have different images. *)
Theorem wire_injective t v1 v2 bs : wf_ty E t -> has_ty E t v1 -> has_ty E t v2 -> image unmarked t v1 bs -> image unmarked t v2 bs -> v1 = v2.
Proof. intros Hw H1 H2 I1 I2. pose proof (wire_read t v1 bs [] Hw H1 I1) as R1. rewrite (wire_read t v2 bs [] Hw H2 I2) in R1. congruence. Qed.
(** With versions: the description of the program, and the value. *)
Theorem wire_versioned P t v : program E P -> has_ty E t v -> exists bs, vwrite E P t v = Ok bs /\ versioned_image P t v bs.
Proof.
  intros (HC & _ & HM) HT. destruct (header_bytes E P HM) as (h & W & W'). destruct (write_total E struct_index (fun sid => put_int_bytes 2 _) t v HT) as (b & Wb & _). unfold vwrite. rewrite W, Wb. cbn [rbind]. eexists. split; [reflexivity|].
  exists h, b. split; auto. split.
  - apply meta_description; auto. eapply write_image; eauto. intros sid. reflexivity.
  - eapply write_image; eauto. intros sid. apply put_int_le.
Qed.
(** The files of a PersistentObject. *)
Theorem wire_persistent lim hd H h B P rename t v : (forall x, length (H x) = h) -> (h < B)%nat -> keeps E P rename t hd lim -> has_ty E t v ->
  exists d f, file_write E P t hd lim H h B v = Ok f /\ persistent_image (format hd) (version hd) P t v d /\ in_blocks H (B - h) d f.
Proof.
  intros HL HB HK HT. destruct HK as [HP _ _ _ HH]. destruct (codec_write_total _ _ _ HH) as (a & Wa & _). destruct (wire_versioned P t v HP HT) as (bs & Wv & Iv).
  unfold vwrite in Wv. unfold file_write. rewrite Wa. cbn [rbind]. destruct (write_protos E P) as [p| |]; cbn [rbind] in *; try discriminate. destruct (write E struct_index t v) as [b| |]; cbn [rbind] in *; try discriminate. apply ok_inj in Wv. subst bs.
  destruct (hwritten_ok H h B HL HB [a; p; b]) as (bs & Wf & Bo). exists (a ++ p ++ b), (stored_blocks H bs). cbn [concat] in Bo. rewrite app_nil_r in Bo. split; auto. split; [|now exists bs].
  pose proof (write_image unmarked _ (fun _ => []) (fun _ => eq_refl) _ _ _ HH Wa) as I. cbn [header_ty header_val image map fields] in I. destruct I as (x & r & -> & Ix & y & r' & -> & Iy & ->). rewrite app_nil_r, <- app_assoc. exists x, y, (p ++ b). auto.
Qed.
End Props.
Example wire_demo : image unmarked (TTuple [TInt true 4; TVec TBool; TOpt (TStr 2); TVar [TBool; TTime 1000]]) (VTup [VInt (-2); VList [VBool true; VBool false; VBool true; VBool false; VBool false; VBool false; VBool false; VBool false; VBool true]; VSome (VStr [258]); VVar 1 (VInt 3)])
  [254; 255; 255; 255; 9; 0; 0; 0; 0; 0; 0; 0; 5; 1; 1; 1; 0; 0; 0; 0; 0; 0; 0; 2; 1; 1; 0; 0; 0; 0; 0; 0; 0; 184; 11; 0; 0; 0; 0; 0; 0].
Proof.
  apply (wire_format {| cmp := fun _ _ _ => false; init := fun _ => []; alloc_ok := fun _ => true; limit := None |}); [|reflexivity]. cbn. repeat split; auto; try lia; repeat constructor; cbn; lia.
Qed.
