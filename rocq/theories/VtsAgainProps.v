(** One Reader for many values (C95). *)
From Coq Require Import ZifyBool ZifyNat String.
From Verif Require Import Common Int2ArrayModel Int2ArrayProps CodecModel CodecSpec CodecProofs CodecLocal CodecProps CodecSim VtsModel VtsSpec VtsProofs VtsEvolve VtsProps PlainReaderModel VtsAgainModel.
Local Open Scope Z_scope.
Local Open Scope list_scope.
Local Notation length := List.length.

(** ** What reading does to the maps *)
Section Keep.
Context (E : env) (sch : schema) (rename : nat -> fname -> fname) (allow_delete : bool) (olds : list proto) (I : cache -> Prop).
Context (HI : forall sid idx c m c', I c -> find_map sch rename olds sid idx c = Ok (m, c') -> I c').
Notation stream := (bytes * cache)%type.
Definition same (s s' : stream) : Prop := s = s' /\ I (snd s).
Definition keep {X} (f : stream -> res (X * stream)) : Prop := forall s x s', I (snd s) -> f s = Ok (x, s') -> I (snd s').
Lemma keep_sim {X} (f : stream -> res (X * stream)) : keep f <-> sim same f f.
Proof.
  split.
  - intros H a b x a' [<- Ha] Q. exists a'. split; auto. split; auto. eapply H; eauto.
  - intros H s x s' Hs Q. destruct (H s s x s' (conj eq_refl Hs) Q) as (b' & Q' & [<- Hb]). auto.
Qed.
Lemma keep_raw n : keep (vraw get_raw n).
Proof. intros [b c] x s' H Q. unfold vraw in Q. cbn [fst snd] in *. destruct (get_raw n b) as [[y r]| |]; cbn [rbind] in Q; try discriminate. injection Q as <- <-. auto. Qed.
Lemma keep_index : keep (read_index get_raw olds).
Proof.
  intros s x s' H Q. unfold read_index in Q. destruct (get_int (vraw get_raw) false 2 s) as [[z r]| |] eqn:Ez; cbn [rbind] in Q; try discriminate.
  destruct (_ <=? z); [discriminate|]. injection Q as <- <-. unfold get_int in Ez. destruct (vraw get_raw 2 s) as [[y t]| |] eqn:Er; cbn [rbind] in Ez; try discriminate.
  injection Ez as <- <-. eapply keep_raw; eauto.
Qed.
Definition skeep (sk : option nat -> stream -> res stream) : Prop := forall o s s', I (snd s) -> sk o s = Ok s' -> I (snd s').
Lemma keep_read sk : skeep sk -> forall t o, keep (read E (vraw get_raw) (hook get_raw sch rename allow_delete olds sk) t o).
Proof.
  intros Hsk t o. apply keep_sim. apply read_sim.
  - intros n. apply keep_sim, keep_raw.
  - intros sid rs qs cur HF. intros a b x a' [<- Ha] Q. unfold hook in Q |- *.
    destruct (read_index get_raw olds a) as [[idx s1]| |] eqn:E1; cbn [rbind] in Q |- *; try discriminate.
    destruct (find_map sch rename olds sid idx (snd s1)) as [[m c]| |] eqn:E2; cbn [rbind] in Q |- *; try discriminate.
    assert (Hc : I c) by (eapply HI; [eapply keep_index; eauto|eauto]).
    assert (Hs : same (fst s1, c) (fst s1, c)) by now split. destruct m as [|y m]; [eapply (sim_each same rs qs HF cur); eauto|].
    clear E2. revert Hs Q. generalize (combine (nth idx olds []) (y :: m)) as fs. generalize (fst s1, c) as s. clear -Hsk HF. intros s fs. revert cur s.
    induction fs as [|[[n ot] [j|]] fs IH]; intros cur s Hs Q; cbn [read_mapped] in Q |- *.
    + injection Q as <- <-. eauto.
    + destruct (match ot with Some _ => _ | None => _ end) as [e| |]; cbn [rbind] in Q |- *; try discriminate. destruct (negb e); [discriminate|].
      assert (K : match nth_error rs j, nth_error qs j with Some r, Some q => sims same r q | None, None => True | _, _ => False end).
      { clear -HF. revert j. induction HF; intros [|j]; cbn; auto. apply IHHF. }
      destruct (nth_error rs j) as [rd|], (nth_error qs j) as [qd|]; try contradiction; try discriminate.
      destruct (rd (nth j cur VNone) s) as [[v s2]| |] eqn:Ev; cbn [rbind] in Q; try discriminate.
      destruct (K _ s s v s2 Hs Ev) as (b' & -> & Hb). cbn [rbind]. destruct Hb as [<- Hb]. apply IH; auto. now split.
    + destruct allow_delete; [|discriminate]. destruct (sk ot s) as [s2| |] eqn:Es; cbn [rbind] in Q |- *; try discriminate.
      apply IH; auto. split; auto. destruct Hs as [_ Hs]. eapply Hsk; eauto.
Qed.
Lemma keep_skip f : skeep (skip get_raw E sch rename allow_delete olds f).
Proof.
  induction f as [|f IH]; intros o s s' H Q; cbn [skip] in Q; [discriminate|]. destruct o as [k|].
  - destruct (nth_error (ftypes sch) k) as [t|]; [|discriminate].
    destruct (read E (vraw get_raw) _ t (default E t) s) as [[v s1]| |] eqn:Ev; cbn [rbind] in Q; try discriminate. injection Q as <-.
    eapply (keep_read _ IH); eauto.
  - destruct (read_index get_raw olds s) as [[idx s1]| |] eqn:E1; cbn [rbind] in Q; try discriminate. pose proof (keep_index _ _ _ H E1) as H1. clear E1 H.
    revert s1 H1 Q. induction (nth idx olds []) as [|g p IHp]; intros s1 H1 Q; cbn [skip_all] in Q; [injection Q as <-; auto|].
    destruct (skip get_raw E sch rename allow_delete olds f (snd g) s1) as [s2| |] eqn:E2; cbn [rbind] in Q; try discriminate. eapply IHp; [|exact Q]. eapply IH; eauto.
Qed.
Lemma keep_vreadv f t d s c v s' c' : I c -> vreadv get_raw E sch rename allow_delete olds f t d (s, c) = Ok (v, (s', c')) -> I c'.
Proof. intros H Q. exact (keep_read _ (keep_skip f) t d (s, c) v (s', c') H Q). Qed.
End Keep.

(** ** Every state of a Reader *)
Section States.
Context (E : env) (sch : schema) (rename : nat -> fname -> fname) (allow_delete : bool) (olds : list proto).
Definition made (c : cache) : Prop := forall i k m, c i = Some (k, m) -> m = made_map sch rename olds k i.
Lemma find_map_made sid idx c m c' : made c -> find_map sch rename olds sid idx c = Ok (m, c') -> made c'.
Proof.
  intros H Q. unfold find_map in Q. destruct (c idx) as [[k m']|] eqn:Ec.
  - destruct (Nat.eqb k sid); [|discriminate]. now injection Q as <- <-.
  - destruct (map_protos _ _ _ _ _) as [m1| |] eqn:Em; cbn [rbind] in Q; try discriminate. injection Q as <- <-.
    intros i k m Hi. unfold upd in Hi. destruct (Nat.eqb_spec i idx) as [->|]; [|eauto]. injection Hi as <- <-. unfold made_map. now rewrite Em.
Qed.
Lemma reader_made c : reader_state E sch rename allow_delete olds c -> made c.
Proof.
  induction 1 as [|c f t d s v s' c' H IH Q|c c' H IH A].
  - intros i k m Q. discriminate.
  - eapply (keep_vreadv E sch rename allow_delete olds made find_map_made); eauto.
  - intros i k m Q. destruct (A i) as [Ai|[_ [sid Ai]]]; rewrite Ai in Q; [eauto|]. now injection Q as <- <-.
Qed.
(** A call of FindProtoMap that throws leaves such a state. *)
Lemma find_map_after_added sid idx c : added sch rename olds c (find_map_after sch rename olds sid idx c).
Proof.
  intros i. unfold find_map_after. destruct (c idx) as [p|] eqn:Ec; [now left|]. unfold upd. destruct (Nat.eqb_spec i idx) as [->|]; [|now left]. right. eauto.
Qed.
Theorem vts_rejected_state sid s c e s' c' : reader_state E sch rename allow_delete olds c -> rejected sch rename olds sid (s, c) = Some (e, (s', c')) ->
  reader_state E sch rename allow_delete olds c'.
Proof.
  intros H Q. unfold rejected in Q. destruct (read_index get_raw olds (s, c)) as [[idx s1]| |] eqn:E1; try discriminate.
  destruct (find_map _ _ _ _ _ _) as [?|e'|]; try discriminate. injection Q as <- <- <-.
  assert (snd s1 = c) as ->.
  { apply (keep_index olds (fun c' => c' = c) (s, c) idx s1); auto. }
  eapply rs_exception; eauto using find_map_after_added.
Qed.
(** What is in protoMaps stays there. *)
Lemma maps_stay f t d s c v s' c' i x : c i = Some x -> vreadv get_raw E sch rename allow_delete olds f t d (s, c) = Ok (v, (s', c')) -> c' i = Some x.
Proof.
  intros H Q. eapply (keep_vreadv E sch rename allow_delete olds (fun c => c i = Some x)); eauto.
  intros sid idx c1 m c2 H1 F. unfold find_map in F. destruct (c1 idx) as [[k m']|] eqn:Ec.
  - destruct (Nat.eqb k sid); [|discriminate]. now injection F as <- <-.
  - destruct (map_protos _ _ _ _ _); cbn [rbind] in F; try discriminate. injection F as <- <-. unfold upd. destruct (Nat.eqb_spec i idx) as [->|]; congruence.
Qed.
Lemma read_index_bytes i s c : Z.of_nat (length olds) < 2 ^ 16 -> (i < length olds)%nat -> read_index get_raw olds (struct_index i ++ s, c) = Ok (i, (s, c)).
Proof.
  intros H Hi. unfold read_index, struct_index. rewrite get_int_lift, get_put_int; [|lia|split; lia]. cbn [lift rbind].
  destruct (Z.of_nat (length olds) <=? Z.of_nat i) eqn:Q; [lia|]. now rewrite Nat2Z.id.
Qed.
(** A structure that has been read into one new structure cannot be read into another one
    by the same Reader. *)
Theorem vts_one_target i s2 fs2 d s c v s' c' f s3 fs3 d' f' r c'' : Z.of_nat (length olds) < 2 ^ 16 -> (i < length olds)%nat ->
  vreadv get_raw E sch rename allow_delete olds f (TStruct s2 fs2) d (struct_index i ++ s, c) = Ok (v, (s', c')) ->
  (forall x, c' i = Some x -> c'' i = Some x) -> s3 <> s2 ->
  vreadv get_raw E sch rename allow_delete olds f' (TStruct s3 fs3) d' (struct_index i ++ r, c'') = Throw IoError.
Proof.
  intros Hl Hi Q Hc Hne.
  assert (H1 : exists m c1, find_map sch rename olds s2 i c = Ok (m, c1) /\ c1 i = Some (s2, m)).
  { unfold vreadv in Q. cbn [read] in Q. unfold hook at 1 in Q. rewrite read_index_bytes in Q by auto. cbn [rbind snd fst] in Q.
    destruct (find_map sch rename olds s2 i c) as [[m c1]| |] eqn:E1; cbn [rbind] in Q; try discriminate. exists m, c1. split; auto.
    unfold find_map in E1. destruct (c i) as [[k m']|] eqn:Ec.
    - destruct (Nat.eqb_spec k s2) as [->|]; [|discriminate]. injection E1 as <- <-. auto.
    - destruct (map_protos _ _ _ _ _); cbn [rbind] in E1; try discriminate. injection E1 as <- <-. unfold upd. now rewrite Nat.eqb_refl. }
  destruct H1 as (m & c1 & F & H1).
  assert (Q1 : vreadv get_raw E sch rename allow_delete olds f (TStruct s2 fs2) d (struct_index i ++ s, c1) = Ok (v, (s', c'))).
  { rewrite <- Q. unfold vreadv. cbn [read]. unfold hook at 1 3. rewrite !read_index_bytes by auto. cbn [rbind snd fst]. rewrite F.
    unfold find_map. rewrite H1, Nat.eqb_refl. reflexivity. }
  pose proof (Hc _ (maps_stay _ _ _ _ _ _ _ _ _ _ H1 Q1)) as K.
  unfold vreadv. cbn [read]. unfold hook at 1. rewrite read_index_bytes by auto. cbn [rbind snd fst]. unfold find_map. rewrite K.
  destruct (Nat.eqb_spec s2 s3); [congruence|]. reflexivity.
Qed.
End States.

(** ** Values one after another *)
Section Session.
Context (E : env) (O N : schema) (rename : nat -> fname -> fname) (type_map : fname -> fname) (rho : nat -> nat).
Context (HP : program E O) (HclN : closed N) (HI : initialized E N) (HK : known_types O N type_map).
Notation mig := (mig E N rename type_map rho). Notation evolves := (evolves N rename type_map rho).
Notation olds := (old_protos O N type_map).
Notation vreadv := (vreadv get_raw E N rename true olds).
(** Each old structure has gone to the new structure that it has become. *)
Definition agrees (c : cache) : Prop := forall i k m, c i = Some (k, m) -> k = rho i.
Lemma agrees_inv c : reader_state E N rename true olds c -> agrees c -> inv O N rename type_map rho c.
Proof.
  intros H A i. destruct (c i) as [[k m]|] eqn:Ec; [|now left]. right. rewrite (A _ _ _ Ec).
  rewrite (reader_made _ _ _ _ _ _ H _ _ _ Ec), (A _ _ _ Ec). reflexivity.
Qed.
(** C95: whatever the Reader has read before, with or without exceptions, the value is
    read as a new Reader reads it. *)
Theorem vts_reader_any_state c t1 v1 t2 d : reader_state E N rename true olds c -> agrees c ->
  in_schema O t1 -> in_schema N t2 -> evolves t1 (Some t2) -> has_ty E t1 v1 -> blank t2 d ->
  exists v2 b, mig t1 v1 (Some (t2, d, v2)) /\ write E struct_index t1 v1 = Ok b /\
    forall rest, exists c', vreadv (length (b ++ rest)) t2 d (b ++ rest, c) = Ok (v2, (rest, c')) /\ reader_state E N rename true olds c' /\ agrees c'.
Proof.
  intros HR HA HO HN HE HT HB. destruct (evolves_mig E N rename type_map rho HI t1) as [R _]. destruct (R t2 v1 d HE HN HT HB) as [v2 M].
  destruct (write_total E struct_index (fun sid => put_int_bytes 2 _) t1 v1 HT) as (b & W & _). exists v2, b. split; auto. split; auto. intros rest.
  destruct HP as (_ & Hi & _). destruct (reads_ok E O N rename type_map rho Hi HclN HK t1 HO) as [RD _].
  destruct (RD v1 t2 d v2 b (length (b ++ rest)) M W rest c) as (c' & I' & Q); [now apply agrees_inv|lia|].
  exists c'. split; [exact Q|]. split; [eapply rs_read; eauto|]. intros i k m Ek. destruct (I' i) as [X|X]; rewrite X in Ek; [discriminate|]. now injection Ek as <- _.
Qed.
(** Values that the new types can take: the old type and value, the new type and the object
    that is read into *)
Definition item := ((ty * val) * (ty * val))%type.
Definition readable_item (x : item) : Prop :=
  let '((t1, v1), (t2, d)) := x in in_schema O t1 /\ in_schema N t2 /\ evolves t1 (Some t2) /\ has_ty E t1 v1 /\ blank t2 d.
(** What a Reader that reads nothing else makes of it. *)
Definition read_alone (x : item) (v2 : val) : Prop :=
  let '((t1, v1), (t2, d)) := x in exists bs, vwrite E O t1 v1 = Ok bs /\ vread E N rename type_map true t2 d bs = Ok (v2, []).
Lemma session_from l : forall c, reader_state E N rename true olds c -> agrees c -> Forall readable_item l ->
  exists vs b, Forall2 (fun x v => mig (fst (fst x)) (snd (fst x)) (Some (fst (snd x), snd (snd x), v)) /\ read_alone x v) l vs /\
    writer_writes E (map (fun x => fst (fst x)) l) (map (fun x => snd (fst x)) l) = Ok b /\
    forall rest, exists c', vreadvs E N rename true olds (map snd l) (b ++ rest, c) = Ok (vs, (rest, c')) /\ reader_state E N rename true olds c' /\ agrees c'.
Proof.
  induction l as [|[[t1 v1] [t2 d]] l IH]; intros c HR HA HF; cbn [map fst snd writer_writes vreadvs].
  - exists [], []. split; [constructor|]. split; auto. intros rest. eauto.
  - inversion HF as [|? ? Hx HF']; subst. destruct Hx as (H1 & H2 & H3 & H4 & H5).
    destruct (vts_reader_any_state c t1 v1 t2 d HR HA H1 H2 H3 H4 H5) as (v2 & a & M & W & Q).
    destruct (Q []) as (c0 & _ & HR0 & HA0). destruct (IH c0 HR0 HA0 HF') as (vs & b & M' & W' & _). clear c0 HR0 HA0.
    exists (v2 :: vs), (a ++ b). split; [constructor; auto; split; auto|].
    { destruct (vts_write_total E O HP t1 v1 H4) as (bs & Wb & _). exists bs. split; auto. rewrite <- (app_nil_r bs). eapply vread_vwrite; eauto. }
    rewrite W, W'. cbn [rbind]. split; auto. intros rest. rewrite <- app_assoc. destruct (Q (b ++ rest)) as (c1 & Q1 & HR1 & HA1). cbn [fst]. rewrite Q1. cbn [rbind].
    destruct (IH c1 HR1 HA1 HF') as (vs' & b' & M'' & W'' & Q'). rewrite W' in W''. apply ok_inj in W''. subst b'.
    destruct (Q' rest) as (c2 & Q2 & HR2 & HA2). rewrite Q2. cbn [rbind]. exists c2. split; auto.
    do 3 f_equal. clear -M' M''. revert vs' M''. induction M' as [|x v l vs HV M' IH]; intros vs' M''; inversion M''; subst; auto. f_equal; [|auto].
    eapply mig_det; [apply H1|apply HV].
Qed.
(** A Writer writes the prototypes and any number of values; one Reader reads the
    prototypes and all the values: each becomes what the rules say and what it becomes
    when it is the only one. *)
Theorem vts_session l : Forall readable_item l ->
  exists vs bs, Forall2 (fun x v => mig (fst (fst x)) (snd (fst x)) (Some (fst (snd x), snd (snd x), v)) /\ read_alone x v) l vs /\
    vwrite_all E O (map (fun x => fst (fst x)) l) (map (fun x => snd (fst x)) l) = Ok bs /\
    forall rest, vread_all E N rename type_map true (map snd l) (bs ++ rest) = Ok (vs, rest).
Proof.
  intros HF. destruct (session_from l no_maps) as (vs & b & M & W & Q); auto; [constructor|intros i k m X; discriminate|].
  destruct HP as (HclO & Hi & HM). destruct (header_bytes E O HM) as (h & Wh & _). exists vs, (h ++ b). split; auto. unfold vwrite_all. rewrite Wh, W. cbn [rbind]. split; auto.
  intros rest. unfold vread_all. rewrite <- app_assoc, (read_header E O N type_map h (b ++ rest) HP Wh), attach_known by auto. cbn [rbind].
  destruct (Q rest) as (c' & Q1 & _). rewrite Q1. reflexivity.
Qed.
End Session.

(** ** Initialize: no prototypes in the stream *)
Section Init.
Context (E : env) (P : schema) (rename : nat -> fname -> fname) (allow_delete : bool).
Context (Hi : indexable P) (Hnames : forall fs, In fs (structs P) -> NoDup (map fst fs)).
Context (Hren : forall sid fs f, nth_error (structs P) sid = Some fs -> In f fs -> rename sid (fst f) = fst f).
Notation olds := (init_protos P).
Lemma init_map sid fs : nth_error (structs P) sid = Some fs -> map_protos P rename sid (new_proto P fs) (new_proto P fs) = Ok [].
Proof.
  intros Hs. pose proof (Hnames fs (nth_error_In _ _ Hs)) as ND.
  assert (M : mapM (map_field P rename sid (new_proto P fs)) (new_proto P fs) = Ok (map Some (seq 0 (length (new_proto P fs))))).
  { assert (K : forall pre post, pre ++ post = fs -> mapM (map_field P rename sid (new_proto P fs)) (new_proto P post) = Ok (map Some (seq (length pre) (length (new_proto P post))))).
    { intros pre post. revert pre. induction post as [|f post IH]; intros pre Q; [reflexivity|]. cbn [new_proto map mapM length seq].
      assert (Hn : nth_error fs (length pre) = Some f) by (rewrite <- Q, nth_error_app2, Nat.sub_diag by lia; reflexivity).
      unfold map_field at 1. cbn [fst snd]. rewrite (Hren sid fs f Hs) by (eapply nth_error_In; eauto).
      rewrite index_new, (index_of_nth fs ND _ _ Hn). rewrite (new_proto_at P fs (length pre) (snd f)) by (now rewrite nth_error_map, Hn).
      assert (check_compatible P (field_type P (snd f)) (field_type P (snd f)) = Ok tt) as ->.
      { destruct (field_type P (snd f)) as [k|]; [|reflexivity]. cbn [check_compatible]. unfold types_equal. rewrite Nat.eqb_refl. reflexivity. }
      cbn [rbind]. change (map (fun f => (fst f, field_type P (snd f))) post) with (new_proto P post). rewrite (IH (pre ++ [f])) by (now rewrite <- app_assoc). cbn [rbind].
      rewrite app_length. cbn [length]. rewrite Nat.add_1_r. reflexivity. }
    now apply (K []). }
  unfold map_protos. rewrite M. cbn [rbind]. unfold trivial_map. rewrite Nat.eqb_refl. cbn [andb]. destruct (list_eq_dec _ _ _) as [|n]; [reflexivity|].
  exfalso. apply n. now rewrite map_length, seq_length.
Qed.
Definition own (c : cache) : Prop := forall i, c i = None \/ c i = Some (i, []).
(** A reader that expects the index of the structure and then its fields *)
Definition strict (sid : nat) (rds : list (reader bytes)) (cur : list val) (s : bytes) : res (list val * bytes) :=
  let* (z, s1) := get_int get_raw false 2 s in
  if (z =? Z.of_nat sid) && Nat.ltb sid (length (structs P)) then get_each rds cur s1 else UB.
Definition with_maps (s : bytes) (st : bytes * cache) : Prop := fst st = s /\ own (snd st).
Lemma init_sim f : forall t o, sim with_maps (read E get_raw strict t o) (read E (vraw get_raw) (hook get_raw P rename allow_delete olds (skip get_raw E P rename allow_delete olds f)) t o).
Proof.
  apply read_sim.
  - intros n s [s0 c] x s' [Hs Hc] Q. cbn [fst snd] in *. subst s0. unfold vraw. cbn [fst snd]. rewrite Q. cbn [rbind]. eexists. split; [reflexivity|]. now split.
  - intros sid rs qs cur HF s [s0 c] x s' [Hs Hc] Q. cbn [fst snd] in *. subst s0. unfold strict in Q. unfold hook at 1, read_index.
    destruct (get_int get_raw false 2 s) as [[z s1]| |] eqn:Ez; cbn [rbind] in Q; try discriminate.
    rewrite get_int_lift, Ez. cbn [lift rbind]. destruct ((z =? Z.of_nat sid) && Nat.ltb sid (length (structs P))) eqn:Eb; [|discriminate].
    apply andb_prop in Eb as [E1 E2]. apply Z.eqb_eq in E1. apply Nat.ltb_lt in E2. subst z. unfold init_protos at 1. rewrite map_length.
    destruct (Z.of_nat (length (structs P)) <=? Z.of_nat sid) eqn:Q2; [lia|]. cbn [rbind fst snd]. rewrite Nat2Z.id.
    destruct (nth_error (structs P) sid) as [fs|] eqn:Es; [|apply nth_error_None in Es; lia].
    assert (F : exists c', find_map P rename olds sid sid c = Ok ([], c') /\ own c').
    { unfold find_map. destruct (Hc sid) as [->| ->]; [|rewrite Nat.eqb_refl; eauto].
      rewrite (nth_error_nth _ _ [] Es). replace (nth sid olds []) with (new_proto P fs) by (symmetry; apply nth_error_nth; unfold init_protos; now rewrite nth_error_map, Es).
      rewrite (init_map sid fs Es). cbn [rbind]. eexists. split; [reflexivity|]. intros i. unfold upd. destruct (Nat.eqb_spec i sid) as [->|]; auto. }
    destruct F as (c' & -> & Hc'). cbn [rbind]. eapply (sim_each with_maps rs qs HF cur); eauto. now split.
Qed.
Lemma in_schema_sids t : in_schema P t -> sids (fun sid => (sid < length (structs P))%nat) t.
Proof.
  induction t using ty_ind'; cbn [in_schema sids]; auto.
  - intros [H1 H2]. auto.
  - intros [H1 _]. clear -H H1. induction H; cbn [map all] in *; auto. destruct H1. split; auto.
  - intros H1. clear -H H1. induction H; cbn [map all] in *; auto. destruct H1. split; auto.
  - intros [H1 H2]. split; [apply nth_error_Some; congruence|]. clear -H H2. induction H; cbn [map all] in *; auto. destruct H2. split; auto.
Qed.
(** A Reader that is initialized without prototypes reads what a Writer of the same program
    writes without prototypes: any number of values, whether or not fields may be deleted. *)
Theorem vts_initialize : forall items, Forall (fun x : (ty * val) * val => let '((t, v), d) := x in wf_ty E t /\ in_schema P t /\ has_ty E t v /\ fresh t d) items ->
  exists b, writer_writes E (map (fun x => fst (fst x)) items) (map (fun x => snd (fst x)) items) = Ok b /\
    forall rest, exists c, vreadvs E P rename allow_delete olds (map (fun x => (fst (fst x), snd x)) items) (b ++ rest, no_maps) = Ok (map (fun x => snd (fst x)) items, (rest, c)).
Proof.
  assert (G : forall items, Forall (fun x : (ty * val) * val => let '((t, v), d) := x in wf_ty E t /\ in_schema P t /\ has_ty E t v /\ fresh t d) items ->
    exists b, writer_writes E (map (fun x => fst (fst x)) items) (map (fun x => snd (fst x)) items) = Ok b /\
    forall rest c, own c -> exists c', vreadvs E P rename allow_delete olds (map (fun x => (fst (fst x), snd x)) items) (b ++ rest, c) = Ok (map (fun x => snd (fst x)) items, (rest, c'))).
  { induction items as [|[[t v] d] items IH]; intros HF; cbn [map fst snd writer_writes vreadvs].
    - exists []. split; auto. intros rest c _. eauto.
    - inversion HF as [|? ? Hx HF']; subst. destruct Hx as (H1 & H2 & H3 & H4). destruct (IH HF') as (b & W & Q).
      destruct (write_total E struct_index (fun sid => put_int_bytes 2 _) t v H3) as (a & Wa & _). rewrite Wa, W. cbn [rbind]. exists (a ++ b). split; auto. intros rest c Hc.
      rewrite <- app_assoc. cbn [fst].
      assert (R : read E get_raw strict t d (a ++ b ++ rest) = Ok (v, b ++ rest)).
      { apply (read_write E struct_index strict (fun sid => (sid < length (structs P))%nat)); auto; [|now apply in_schema_sids].
        intros sid rds o b0 r l Hg _ G. unfold strict, struct_index. destruct Hi as [Hi1 _]. rewrite get_put_int; [|lia|split; lia]. cbn [rbind]. rewrite Z.eqb_refl.
        destruct (Nat.ltb_spec sid (length (structs P))); [exact G|lia]. }
      destruct (init_sim (length (a ++ b ++ rest)) t d _ (a ++ b ++ rest, c) _ _ (conj eq_refl Hc) R) as ([s1 c1] & Q1 & [Hs Hc1]). cbn [fst snd] in Hs, Hc1. subst s1.
      unfold vreadv. rewrite Q1. cbn [rbind]. destruct (Q rest c1 Hc1) as (c2 & ->). cbn [rbind]. eauto. }
  intros items HF. destruct (G items HF) as (b & W & Q). exists b. split; auto. intros rest. apply Q. intros i. now left.
Qed.
End Init.

(** ** Where the code does otherwise *)
Local Open Scope string_scope.
(** Version 1: { a : int32, b : int32 }.  Version 2: { a : int64 }, and a structure with an
    int32 elsewhere. *)
Definition rj_old := [(nm "a", I32); (nm "b", I32)].
Definition rj_new := [(nm "a", TInt true 8)].
Definition rj_other := [(nm "o", I32)].
Definition rj_O : schema := {| structs := [rj_old]; ftypes := [I32] |}.
Definition rj_N : schema := {| structs := [rj_new; rj_other]; ftypes := [TInt true 8; I32] |}.
Local Close Scope string_scope.
(** The types do not match, so ReadV throws; but the map of the structure stays in
    protoMaps and is empty as if nothing had changed: when the same Reader meets the
    structure again, it reads wrong data and does not throw. *)
Theorem vts_retry_refuted : exists h b olds st r,
  write_protos env0 rj_O = Ok h /\ write env0 struct_index (TStruct 0 rj_old) (VTup [VInt 1; VInt 2]) = Ok b /\
  read_protos get_raw env0 rj_N id_type (h ++ b) = Ok (olds, b) /\
  vreadv get_raw env0 rj_N id_rename true olds (length b) (TStruct 0 rj_new) (VTup [VInt 0]) (b, no_maps) = Throw IoError /\
  rejected rj_N id_rename olds 0 (b, no_maps) = Some (IoError, st) /\
  vreadv get_raw env0 rj_N id_rename true olds (length b) (TStruct 0 rj_new) (VTup [VInt 0]) (b, snd st) = Ok (VTup [VInt 8589934593], ([], r)).
Proof.
  destruct (write_protos env0 rj_O) as [h| |] eqn:H; [|vm_compute in H; discriminate|vm_compute in H; discriminate]. vm_compute in H. injection H as <-.
  destruct (write env0 struct_index (TStruct 0 rj_old) (VTup [VInt 1; VInt 2])) as [b| |] eqn:W; [|vm_compute in W; discriminate|vm_compute in W; discriminate].
  vm_compute in W. injection W as <-. eexists. eexists. eexists. eexists. eexists. split; [reflexivity|]. split; [reflexivity|]. split; [vm_compute; reflexivity|].
  split; [vm_compute; reflexivity|]. split; [reflexivity|]. vm_compute. reflexivity.
Qed.

(** ** Concrete cases *)
(** Values of both structures of the demonstration program, one of them twice *)
Definition again_items : list item :=
  [((TStruct 1 outer_old, value_old), (TStruct 1 outer_new, value_default)); ((TStruct 0 inner_old, VTup [VInt 5; VStr [97]]), (TStruct 0 inner_new, VTup [VInt 6; VInt 0]));
   ((TStruct 1 outer_old, value_old), (TStruct 1 outer_new, value_default))].
Example vts_session_sample : match vwrite_all env0 schema_old (map (fun x => fst (fst x)) again_items) (map (fun x => snd (fst x)) again_items) with
  | Ok bs => vread_all env0 schema_new id_rename id_type true (map snd again_items) (bs ++ [9]) = Ok ([value_new; VTup [VInt 6; VInt 5]; value_new], [9])
  | _ => False end.
Proof. vm_compute. reflexivity. Qed.
(** The same old structure into two new structures *)
Example vts_one_target_sample : match vwrite_all env0 rj_O [TStruct 0 rj_old; TStruct 0 rj_old] [VTup [VInt 1; VInt 2]; VTup [VInt 3; VInt 4]] with
  | Ok bs => let N := {| structs := [[(nm "a", I32)]; [(nm "b", I32)]] ; ftypes := [I32] |} in
      vread_all env0 N id_rename id_type true [(TStruct 0 [(nm "a", I32)], VTup [VInt 0]); (TStruct 0 [(nm "a", I32)], VTup [VInt 0])] bs = Ok ([VTup [VInt 1]; VTup [VInt 3]], []) /\
      vread_all env0 N id_rename id_type true [(TStruct 0 [(nm "a", I32)], VTup [VInt 0]); (TStruct 1 [(nm "b", I32)], VTup [VInt 0])] bs = Throw IoError
  | _ => False end.
Proof. vm_compute. split; reflexivity. Qed.
Example vts_initialize_sample : match writer_writes env0 [TStruct 1 outer_old; TStruct 0 inner_old] [value_old; VTup [VInt 5; VStr [97]]] with
  | Ok b => length b = 62%nat /\ match vreadvs env0 schema_old id_rename false (init_protos schema_old)
             [(TStruct 1 outer_old, VTup [VInt 0; VList []; VStr []; VTup [VInt 0; VStr []]]); (TStruct 0 inner_old, VTup [VInt 0; VStr []])] (b ++ [7], no_maps) with
            | Ok (l, (r, _)) => l = [value_old; VTup [VInt 5; VStr [97]]] /\ r = [7] | _ => False end
  | _ => False end.
Proof. vm_compute. repeat split. Qed.
