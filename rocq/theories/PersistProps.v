(** PersistentObject keeps its value through crashes and new versions of the program (C56). *)
From Coq Require Import ZifyBool ZifyNat String.
From Verif Require Import Common Int2ArrayModel CodecModel CodecSpec CodecProofs CodecProps VtsModel VtsSpec VtsProofs VtsEvolve VtsProps VtsTyped.
From Verif Require Import HashStreamModel HashStreamSpec HashStreamProofs HashStreamProps StreamRel VtsLocal.
From Verif Require Import AStoreModel AStoreSpec AStoreProofs AStoreProps PersistModel PersistSpec PersistProofs.
Local Open Scope list_scope.
Local Notation length := List.length.

(** ** Storages whose files are empty, complete or what is left of a complete file *)
Section Journal.
Context {V : Type} (enc : V -> bytes) (rd : bytes -> res (V * nat)) (good : V -> Prop) (remains : bytes -> bytes -> Prop) (file : bytes -> V -> Prop).
Lemma journal_format : (forall c, remains c c) -> (forall x k c, remains x (firstn k c) -> remains x c) ->
  (forall f v, file f v -> accepts rd f v /\ good v) -> (forall v, good v -> file (enc v) v) -> (forall f v x, file f v -> remains x f -> x <> f -> rejects rd x) -> rejects rd [] ->
  format_ok enc rd good (disk_file remains file) (disk_torn remains).
Proof.
  intros R1 R2 F1 F2 F3 F4. split.
  - intros c [v|]; cbn; [apply F1|]. intros [->|(f & v & Hf & Hr & Hn)]; eauto.
  - intros c v Hf. now apply (F1 c v).
  - intros d c. split; auto.
  - exact F2.
  - now left.
  - intros v k c Hg [T _]. specialize (T eq_refl). apply R2 in T. destruct (list_eq_dec Z.eq_dec c (enc v)) as [->|Hn]; [right; now apply F2|]. left. right. exists (enc v), v. auto.
  - intros b o c Hb [_ T]. destruct (T eq_refl) as [->| ->]; auto. left. now left.
Qed.
End Journal.
Lemma cut_refl c : cut c c.
Proof. exists (length c). now rewrite firstn_all. Qed.
Lemma cut_firstn x k c : cut x (firstn k c) -> cut x c.
Proof. intros [j ->]. rewrite firstn_firstn. eexists; reflexivity. Qed.

(** ** One file *)
Section File.
Context (E : env) (lim : Z) (hd : header) (H : bytes -> bytes) (h B : nat) (HL : forall x, length (H x) = h) (HB : (h < B)%nat).

Lemma header_wf : wf_ty (limited E lim) header_ty.
Proof. clear HB. cbn. repeat split; auto; lia. Qed.
Lemma read_header_ok a rest : has_ty (limited E lim) header_ty (header_val hd) -> pwrite (limited E lim) header_ty (header_val hd) = Ok a ->
  read_header E hd lim get_raw (a ++ rest) = Ok (tt, rest).
Proof.
  intros HH W. unfold read_header. pose proof (codec_round_trip_default _ _ _ _ rest header_wf HH W) as K. unfold pread in K. change (default (limited E lim) header_ty) with (default E header_ty) in K. rewrite K. cbn [rbind header_val].
  assert (fname_eqb (format hd) (format hd) = true) as -> by (now apply fname_eqb_eq). cbn [negb]. now rewrite Z.ltb_irrefl.
Qed.


(** A file that holds an object with the value [v] for the reading program. *)
Section Known.
Context (N : schema) (rename : nat -> fname -> fname) (t2 : ty).
Notation file_read := (file_read E N rename t2 hd lim H h B).
Definition known_file (f : bytes) (v : val) : Prop := exists d bs, f = stored_blocks H bs /\ blocks_of (B - h) d bs /\ bread E N rename t2 hd lim d = Ok (v, []).
Lemma known_accepts f v : known_file f v -> accepts file_read f v.
Proof. intros (d & bs & -> & Bo & Rd). unfold accepts. now apply file_read_stored with (d := d). Qed.
Lemma known_refuses_cut f v x : known_file f v -> cut x f -> x <> f -> file_read x = Throw EndOfFile \/ file_read x = Throw Corruption.
Proof.
  intros (d & bs & -> & Bo & Rd) [k ->] Hn. destruct (decodes_cut H h B HL HB d bs Bo k) as (d1 & d2 & e & D & -> & N2).
  { destruct (Nat.lt_ge_cases k (length (stored_blocks H bs))) as [L|L]; [exact L|]. contradiction Hn. now apply firstn_all2. }
  destruct (file_read_prefix H h B HL HB E N rename t2 hd lim _ d1 d2 e v D Rd N2) as [K|[_ K]]; auto.
Qed.
Lemma known_refuses f v x : known_file f v -> unforged H B x f -> x <> f -> rejects file_read x.
Proof.
  intros (d & bs & -> & Bo & Rd) U Hn. destruct (decodes_unforged H h B HL HB d bs Bo x U) as (d1 & d2 & e & D & -> & X). destruct d2 as [|z d2].
  - destruct e; [contradiction Hn; auto|]. rewrite app_nil_r in Rd. right.
    pose proof (file_read_bytes H h B HL HB E N rename t2 hd lim x d1 false (fun _ => True) D (fun _ _ => Logic.I) Logic.I) as K. rewrite Rd in K. destruct K as (s & K & (i & d2 & _ & _ & D2 & Ed) & _).
    unfold PersistModel.file_read. rewrite K. cbn [rbind]. eexists _, _. split; [reflexivity|].
    symmetry in Ed. apply app_eq_nil in Ed as [_ ->]. assert (rest s <> []) by (inversion D2; congruence). assert (x <> []) by (inversion D; congruence).
    destruct (rest s); [congruence|]. destruct x; [congruence|]. cbn [length]. lia.
  - left. destruct (file_read_prefix H h B HL HB E N rename t2 hd lim x d1 (z :: d2) e v D Rd) as [K|[_ K]]; [discriminate| |]; rewrite K; eauto 8.
Qed.
Lemma file_read_empty : file_read [] = Throw EndOfFile.
Proof.
  pose proof (file_read_bytes H h B HL HB E N rename t2 hd lim [] [] true (fun _ => True) (d_end H B) (fun _ _ => Logic.I) Logic.I) as K. rewrite bread_empty in K. destruct K as [(K & _)|K]; [discriminate|exact K].
Qed.
(** [remains] is one of the two kinds of crashes. *)
Definition crash_kind (remains : bytes -> bytes -> Prop) : Prop := remains = cut \/ remains = unforged H B.
Lemma known_format remains enc good (file : bytes -> val -> Prop) : crash_kind remains -> (forall f v, file f v -> known_file f v /\ good v) -> (forall v, good v -> file (enc v) v) ->
  format_ok enc file_read good (disk_file remains file) (disk_torn remains).
Proof.
  intros HR F1 F2. apply journal_format.
  - destruct HR as [->| ->]; [apply cut_refl|apply unforged_refl].
  - destruct HR as [->| ->]; [apply cut_firstn|intros; eapply unforged_firstn; eauto].
  - intros f v Hf. apply F1 in Hf as [K G]. split; auto. now apply known_accepts.
  - exact F2.
  - intros f v x Hf Hr Hn. apply F1 in Hf as [K _]. destruct HR as [->| ->]; [|eapply known_refuses; eauto].
    left. destruct (known_refuses_cut f v x K Hr Hn) as [Q|Q]; rewrite Q; eauto 8.
  - left. rewrite file_read_empty. eauto.
Qed.
End Known.

Section Two.
Context (O N : schema) (rename : nat -> fname -> fname) (rho : nat -> nat) (t1 t2 : ty).
Notation becomes := (becomes E N rename rho t1 t2).
Lemma file_known f v1 v2 : program E O -> closed N -> known_types O N (fun n => n) -> in_schema O t1 -> has_ty (limited E lim) header_ty (header_val hd) ->
  own_file E O t1 hd lim H h B f v1 -> becomes v1 v2 -> known_file N rename t2 f v2.
Proof.
  intros HP HC HK HI HH [Hv Hf] M. unfold file_write in Hf. destruct (pwrite (limited E lim) header_ty (header_val hd)) as [a| |] eqn:Wa; cbn [rbind] in Hf; try discriminate.
  destruct (write_protos E O) as [p| |] eqn:Wp; cbn [rbind] in Hf; try discriminate. destruct (write E struct_index t1 v1) as [b| |] eqn:Wb; cbn [rbind] in Hf; try discriminate.
  destruct (hwritten_ok H h B HL HB [a; p; b]) as (bs & Wf & Bo). rewrite Wf in Hf. apply ok_inj in Hf. exists (concat [a; p; b]), bs. split; auto. split; auto.
  unfold bread, read_object. cbn [concat]. rewrite (read_header_ok a _ HH Wa). cbn [rbind].
  assert (Wv : vwrite E O t1 v1 = Ok (p ++ b)) by (unfold vwrite; rewrite Wp, Wb; reflexivity).
  pose proof (vread_vwrite E O N rename (fun n => n) rho t1 v1 t2 (default E t2) v2 (p ++ b) [] HP HC HK HI M Wv) as K. rewrite app_nil_r in K. rewrite app_nil_r. exact K.
Qed.
End Two.
Lemma known_self P : program E P -> known_types P P (fun n => n).
Proof. intros HP fs f Hfs Hf Es. unfold known_type. apply (find_first_in _ _ (snd f)); [now apply (proj1 HP) with fs|now apply fname_eqb_eq]. Qed.

Section One.
Context (P : schema) (rename : nat -> fname -> fname) (t : ty) (HK : keeps E P rename t hd lim).
Notation file_read := (file_read E P rename t hd lim H h B). Notation file_write := (file_write E P t hd lim H h B). Notation file_bytes := (file_bytes E P t hd lim H h B).
Notation own := (own_file E P t hd lim H h B).
Lemma becomes_self v : has_ty E t v -> becomes E P rename (fun s => s) t t v v.
Proof.
  intros Hv. destruct HK. apply mig_unchanged; auto; [apply k_init|]. apply blank_default with (N := P); auto.
Qed.
Lemma own_known f v : own f v -> known_file P rename t f v /\ has_ty E t v.
Proof. intros Hf. split; [|apply Hf]. destruct HK. eapply file_known; eauto; [apply k_program|now apply known_self|]. apply becomes_self, Hf. Qed.
Lemma own_bytes v : has_ty E t v -> own (file_bytes v) v.
Proof.
  intros Hv. split; auto. destruct HK. unfold PersistModel.file_bytes.
  destruct (codec_write_total _ _ _ k_header) as (a & Wa & _). destruct (vts_write_total E P k_program t v Hv) as (bs & Wv & _).
  unfold PersistModel.file_write. rewrite Wa. cbn [rbind]. unfold vwrite in Wv. destruct (write_protos E P) as [p| |]; cbn [rbind] in *; try discriminate. destruct (write E struct_index t v) as [b| |]; cbn [rbind] in *; try discriminate.
  destruct (hwritten_ok H h B HL HB [a; p; b]) as (bs' & Wf & _). now rewrite Wf.
Qed.
Lemma own_format remains : crash_kind remains -> format_ok file_bytes file_read (has_ty E t) (disk_file remains own) (disk_torn remains).
Proof. intros HR. apply known_format; auto; [apply own_known|apply own_bytes]. Qed.
End One.
End File.

(** ** The properties *)
Section Props.
Context (E : env) (lim : Z) (hd : header) (H : bytes -> bytes) (h B : nat).
Notation own P t := (own_file E P t hd lim H h B).
Notation frd P rename t := (file_read E P rename t hd lim H h B). Notation fbytes P t := (file_bytes E P t hd lim H h B).
Notation keeps P rename t := (keeps E P rename t hd lim).

(** What is written is read back, to the end of the file. *)
Theorem persistent_file_round_trip P rename t v : (forall x, length (H x) = h) -> (h < B)%nat -> keeps P rename t -> has_ty E t v ->
  exists f, file_write E P t hd lim H h B v = Ok f /\ frd P rename t f = Ok (v, length f).
Proof.
  intros HL HB HK Hv. exists (fbytes P t v). pose proof (own_bytes E lim hd H h B HL HB P rename t HK v Hv) as Ho. split; [apply Ho|].
  apply (known_accepts E lim hd H h B HL HB P rename t), (own_known E lim hd H h B HL HB P rename t HK). exact Ho.
Qed.
(** Every proper prefix of a file is refused with an exception, whatever the hash. *)
Theorem persistent_file_truncated P rename t v f k : (forall x, length (H x) = h) -> (h < B)%nat -> keeps P rename t -> own P t f v -> (k < length f)%nat ->
  frd P rename t (firstn k f) = Throw EndOfFile \/ frd P rename t (firstn k f) = Throw Corruption.
Proof.
  intros HL HB HK Hf Lk. eapply known_refuses_cut; eauto; [apply own_known; eauto|eexists; reflexivity|].
  intros X. apply (f_equal (@List.length Z)) in X. rewrite firstn_length in X. lia.
Qed.
(** Bytes in which no block was forged are refused, unless they are the file. *)
Theorem persistent_file_damaged P rename t v f x : (forall x, length (H x) = h) -> (h < B)%nat -> keeps P rename t -> own P t f v -> unforged H B x f -> x <> f ->
  rejects (frd P rename t) x.
Proof. intros HL HB HK Hf U Hn. eapply known_refuses; eauto. apply own_known; eauto. Qed.
(** Another format name or version is refused. *)
Theorem persistent_other_header hd' P P' rename t t' v f : (forall x, length (H x) = h) -> (h < B)%nat -> keeps P rename t -> own P t f v -> hd' <> hd ->
  file_read E P' rename t' hd' lim H h B f = Throw IoError.
Proof.
  intros HL HB HK Hf Hn. pose proof Hf as Hf'. unfold own_file, file_write in Hf'. destruct Hf' as [_ Hf']. destruct (pwrite (limited E lim) header_ty (header_val hd)) as [a| |] eqn:Wa; cbn [rbind] in Hf'; try discriminate.
  destruct (write_protos E P) as [p| |]; cbn [rbind] in Hf'; try discriminate. destruct (write E struct_index t v) as [b| |]; cbn [rbind] in Hf'; try discriminate.
  destruct (hwritten_ok H h B HL HB [a; p; b]) as (bs & Wf & Bo). rewrite Wf in Hf'. apply ok_inj in Hf'. subst f.
  assert (D : decodes H B (stored_blocks H bs) (concat [a; p; b]) true) by (now apply (decodes_stored H h)).
  pose proof (file_read_bytes H h B HL HB E P' rename t' hd' lim _ _ _ (fun _ => True) D (fun _ _ => Logic.I) Logic.I) as C.
  assert (R : bread E P' rename t' hd' lim (concat [a; p; b]) = Throw IoError).
  { unfold bread, read_object, read_header. cbn [concat]. pose proof (codec_round_trip_default _ _ _ _ (p ++ b ++ []) (header_wf E lim) (k_header _ _ _ _ _ _ HK) Wa) as K. unfold pread in K.
    change (default (limited E lim) header_ty) with (default E header_ty) in K. rewrite K. cbn [rbind header_val].
    destruct (fname_eqb (format hd) (format hd')) eqn:Ef; [|reflexivity]. apply fname_eqb_eq in Ef. cbn [negb]. destruct (Z.ltb_spec (version hd') (version hd)); [reflexivity|]. destruct (Z.ltb_spec (version hd) (version hd')); [reflexivity|].
    contradiction Hn. destruct hd, hd'. cbn in *. f_equal; [congruence|lia]. }
  rewrite R in C. destruct C as [(C & _)|C]; [discriminate|exact C].
Qed.
(** A save under a mutex writes the same bytes. *)
Theorem persistent_snapshot P rename t v : (forall x, length (H x) = h) -> (h < B)%nat -> keeps P rename t -> has_ty E t v ->
  snapshot_write E P t hd lim H h B v = file_write E P t hd lim H h B v.
Proof.
  intros HL HB HK Hv. destruct HK. unfold snapshot_write, snapshot, file_write.
  destruct (codec_write_total _ _ _ k_header) as (a & -> & _). destruct (vts_write_total E P k_program t v Hv) as (bs & Wv & _). cbn [rbind].
  unfold vwrite in Wv. destruct (write_protos E P) as [p| |]; cbn [rbind] in *; try discriminate. destruct (write E struct_index t v) as [b| |]; cbn [rbind] in *; try discriminate.
  destruct (hwritten_ok H h B HL HB [a; p; b]) as (b1 & -> & B1). destruct (hwritten_ok H h B HL HB [a; p ++ b]) as (b2 & -> & B2). cbn [concat] in *. rewrite app_assoc, !app_nil_r in *.
  assert (b2 = b1) as -> by (eapply (blocks_unique H h B HL HB (B - h)%nat); [lia|exact B1|exact B2|]; now rewrite app_assoc). reflexivity.
Qed.

(** Every history of saves and loads, with crashes anywhere, is one of an atomic value. *)
Theorem persistent_history remains P rename t st o tr st' b' : (forall x, length (H x) = h) -> (h < B)%nat -> crash_kind H B remains -> keeps P rename t ->
  stored (disk_file remains (own P t)) st o -> exec (fbytes P t) (frd P rename t) (has_ty E t) (disk_torn remains) st true tr st' b' ->
  exists o' st'', allowed o tr o' /\ load (fbytes P t) (frd P rename t) st' = Ok (o', st'') /\ stored (disk_file remains (own P t)) st'' o'.
Proof. intros HL HB HR HK S0 X. eapply atomic_storage_history; eauto. now apply own_format. Qed.

(** The object after a load: the value that was there, or the value that it had. *)
Definition loaded (cur : val) (o : option val) (st : storage) : bool * object :=
  match o with Some v => (true, {| value := v; files := st |}) | None => (false, {| value := cur; files := st |}) end.
Lemma object_load_file_ok P rename t (file : bytes -> val -> Prop) cur c o : (forall x, length (H x) = h) -> (h < B)%nat ->
  (forall f v, file f v -> known_file E lim hd H h B P rename t f v) -> disk_file cut file c o ->
  object_load_file E P rename t hd lim H h B cur c = Ok (match o with Some v => (true, v) | None => (false, cur) end).
Proof.
  intros HL HB HF Hc. unfold object_load_file. destruct o as [v|]; cbn in Hc.
  - rewrite (known_accepts E lim hd H h B HL HB P rename t c v (HF _ _ Hc)). now rewrite Nat.eqb_refl.
  - assert (frd P rename t c = Throw EndOfFile \/ frd P rename t c = Throw Corruption) as [-> | ->]; auto.
    destruct Hc as [->|(f & v & Hf & Hr & Hn)]; [left; now apply file_read_empty|]. eapply known_refuses_cut; eauto.
Qed.
Lemma object_load_ok P rename t (file : bytes -> val -> Prop) cur st o : (forall x, length (H x) = h) -> (h < B)%nat ->
  (forall f v, file f v -> known_file E lim hd H h B P rename t f v) -> holds (disk_file cut file) st o ->
  exists st1, load (fbytes P t) (frd P rename t) st = Ok (o, st1) /\
    object_load E P rename t hd lim H h B {| value := cur; files := st |} = Ok (loaded cur o st1).
Proof.
  intros HL HB HF (_ & _ & ob & Hb & Ho). unfold load, object_load. cbn [value files].
  assert (LF : forall c o, disk_file cut file c o -> load_from_file (frd P rename t) c = Ok o).
  { intros c o1 Hc. pose proof (object_load_file_ok P rename t file cur c o1 HL HB HF Hc) as K. unfold object_load_file in K. unfold load_from_file. destruct (frd P rename t c) as [[v n]|e|]; try discriminate.
    - injection K as K. destruct o1, (Nat.eqb n (length c)); try discriminate; congruence.
    - destruct (io_exn e); [|discriminate]. injection K as K. destruct o1; [discriminate|reflexivity]. }
  rewrite (LF _ _ Hb), (object_load_file_ok P rename t file cur _ ob HL HB HF Hb). cbn [rbind]. destruct ob as [v|].
  - subst o. cbn [loaded]. eauto.
  - change (data (master (run st clear_ops))) with (data (master st)). rewrite (LF _ _ Ho), (object_load_file_ok P rename t file cur _ o HL HB HF Ho). cbn [rbind]. destruct o as [v|]; cbn [loaded]; eauto.
Qed.
(** The object: load() shows the value of an atomic history, or returns false and leaves
    the value as it was. *)
Theorem persistent_object P rename t st o tr st' b' cur : (forall x, length (H x) = h) -> (h < B)%nat -> keeps P rename t ->
  stored (disk_file cut (own P t)) st o -> exec (fbytes P t) (frd P rename t) (has_ty E t) (disk_torn cut) st true tr st' b' ->
  exists o' st'', allowed o tr o' /\ object_load E P rename t hd lim H h B {| value := cur; files := st' |} = Ok (loaded cur o' st'') /\ stored (disk_file cut (own P t)) st'' o'.
Proof.
  intros HL HB HK S0 X. assert (FO : format_ok (fbytes P t) (frd P rename t) (has_ty E t) (disk_file cut (own P t)) (disk_torn cut)) by (apply own_format; auto; now left).
  destruct (exec_allowed _ _ _ _ _ FO _ _ _ _ _ X o S0) as (o' & A & R).
  assert (Ho : holds (disk_file cut (own P t)) st' o') by (destruct b'; [eapply stored_holds; eauto|exact R]).
  destruct (object_load_ok P rename t (own P t) cur st' o' HL HB) as (st'' & L & K); auto; [intros f v Hf; eapply own_known; eauto|].
  destruct (load_ok _ _ _ _ _ FO st' o' Ho) as (s2 & L2 & S2). rewrite L in L2. injection L2 as <-. eauto.
Qed.

(** ** A new version of the program *)
Section Upgrade.
Context (O N : schema) (old_init : nat -> list val) (rename0 rename : nat -> fname -> fname) (rho : nat -> nat) (t1 t2 : ty).
(** The old program has other default member initializers. *)
Definition old_env : env := {| cmp := cmp E; init := old_init; alloc_ok := alloc_ok E; limit := limit E |}.
Notation either := (either_file E O N rename rho t1 t2 hd lim H h B).
Notation oread := (file_read old_env O rename0 t1 hd lim H h B). Notation obytes := (file_bytes old_env O t1 hd lim H h B).
Notation oown := (own_file old_env O t1 hd lim H h B). Notation ogood := (has_ty old_env t1).
(** The types have evolved so that old values can be read, and what is read are values. *)
Definition upgrades : Prop :=
  PersistSpec.keeps old_env O rename0 t1 hd lim /\ keeps N rename t2 /\ evolves N rename (fun n => n) rho t1 (Some t2) /\ known_types O N (fun n => n) /\ empty_fits E /\ constructible E t2.
Lemma upgrade_becomes v1 : upgrades -> has_ty E t1 v1 -> exists v2, becomes E N rename rho t1 t2 v1 v2 /\ has_ty E t2 v2.
Proof.
  intros (KO & KN & EV & KT & EF & CT) Hv. destruct (evolves_mig E N rename (fun n => n) rho (k_init _ _ _ _ _ _ KN) t1) as [R _].
  destruct (R t2 v1 (default E t2) EV (k_type _ _ _ _ _ _ KN) Hv (blank_default E N (k_init _ _ _ _ _ _ KN) t2 (k_type _ _ _ _ _ _ KN))) as [v2 M]. exists v2. split; [exact M|].
  pose proof (k_type _ _ _ _ _ _ KN) as TI. exact (mig_has_ty E N rename (fun n => n) rho t1 EF v1 t2 _ v2 TI CT (default_has_ty E N t2 EF TI CT) Hv M).
Qed.
Lemma either_known f v : (forall x, length (H x) = h) -> (h < B)%nat -> upgrades -> either f v -> known_file E lim hd H h B N rename t2 f v /\ has_ty E t2 v.
Proof.
  intros HL HB U [Hf|(v1 & Hf & M)]; pose proof U as (KO & KN & EV & KT & EF & CT).
  - now apply own_known.
  - pose proof (k_type _ _ _ _ _ _ KN) as TI.
    split; [|exact (mig_has_ty E N rename (fun n => n) rho t1 EF v1 t2 _ v TI CT (default_has_ty E N t2 EF TI CT) (proj1 Hf) M)].
    apply (file_known E lim hd H h B HL HB O N rename rho t1 t2 f v1); auto; [exact (k_program _ _ _ _ _ _ KO)|apply (k_program _ _ _ _ _ _ KN)|exact (k_type _ _ _ _ _ _ KO)|exact (k_header _ _ _ _ _ _ KO)].
Qed.
Lemma either_format remains : (forall x, length (H x) = h) -> (h < B)%nat -> crash_kind H B remains -> upgrades ->
  format_ok (fbytes N t2) (frd N rename t2) (has_ty E t2) (disk_file remains either) (disk_torn remains).
Proof.
  intros HL HB HR U. apply known_format; auto; [intros; now apply either_known|]. intros v Hv. left. eapply own_bytes; eauto. apply U.
Qed.
Lemma either_reads remains x o1 : upgrades -> disk_file remains oown x o1 -> exists o2, option_becomes E N rename rho t1 t2 o1 o2 /\ disk_file remains either x o2.
Proof.
  intros U Hx. destruct o1 as [v1|]; cbn in Hx.
  - destruct (upgrade_becomes v1 U (proj1 Hx)) as (v2 & M & _). exists (Some v2). split; [exact M|]. right. exists v1. split; [exact Hx|exact M].
  - exists None. split; [exact Logic.I|]. destruct Hx as [->|(f & v1 & Hf & Hr & Hn)]; [now left|]. right. destruct (upgrade_becomes v1 U (proj1 Hf)) as (v2 & M & _).
    exists f, v2. split; [right; exists v1; split; [exact Hf|exact M]|auto].
Qed.
(** The new program finds what the history of the old one has left, even after a crash. *)
Theorem persistent_upgrade remains st o tr st' b' : (forall x, length (H x) = h) -> (h < B)%nat -> crash_kind H B remains -> upgrades ->
  stored (disk_file remains oown) st o -> exec obytes oread ogood (disk_torn remains) st true tr st' b' ->
  exists o1 o2 st'', allowed o tr o1 /\ option_becomes E N rename rho t1 t2 o1 o2 /\
    load (fbytes N t2) (frd N rename t2) st' = Ok (o2, st'') /\ stored (disk_file remains either) st'' o2.
Proof.
  intros HL HB HR U S0 X. assert (FO : format_ok obytes oread ogood (disk_file remains oown) (disk_torn remains)) by (apply own_format; auto; apply U).
  pose proof (either_format remains HL HB HR U) as FN. destruct (exec_allowed _ _ _ _ _ FO _ _ _ _ _ X o S0) as (o1 & A & R).
  assert (Ho : holds (disk_file remains oown) st' o1) by (destruct b'; [eapply stored_holds; eauto|exact R]).
  assert (exists o2, option_becomes E N rename rho t1 t2 o1 o2 /\ holds (disk_file remains either) st' o2) as (o2 & M & H2).
  { destruct Ho as (C1 & C2 & ob & Hb & Ho). destruct (either_reads remains _ _ U Hb) as (ob2 & M & Hb2). destruct ob as [v|].
    - subst o1. destruct ob2 as [v2|]; [|contradiction]. exists (Some v2). split; [exact M|]. split; auto. split; auto. exists (Some v2). auto.
    - destruct ob2; [contradiction|]. destruct (either_reads remains _ _ U Ho) as (o2 & M2 & Hm). exists o2. split; auto. split; auto. split; auto. exists None. auto. }
  destruct (load_ok _ _ _ _ _ FN st' o2 H2) as (st'' & L & S2). exists o1, o2, st''. auto.
Qed.
(** And goes on from there. *)
Theorem persistent_upgraded_history remains st o tr st' b' : (forall x, length (H x) = h) -> (h < B)%nat -> crash_kind H B remains -> upgrades ->
  stored (disk_file remains either) st o -> exec (fbytes N t2) (frd N rename t2) (has_ty E t2) (disk_torn remains) st true tr st' b' ->
  exists o' st'', allowed o tr o' /\ load (fbytes N t2) (frd N rename t2) st' = Ok (o', st'') /\ stored (disk_file remains either) st'' o'.
Proof. intros HL HB HR U S0 X. eapply atomic_storage_history; eauto. now apply either_format. Qed.
End Upgrade.
End Props.

(** ** Concrete cases: the program of VtsProps, a hash of two bytes, blocks of 50 *)
Definition old_init0 (sid : nat) : list val := match sid with O => [VInt 0; VStr []] | _ => [VInt 0; VList []; VStr []; VTup [VInt 0; VStr []]] end.
Definition env_old : env := old_env env0 old_init0.
Definition demo_hd : header := {| format := str "Demo"; version := 1 |}.
Ltac schema_cases := intros [|[|sid]] fs Hs; cbn in Hs; try discriminate; [| |destruct sid; discriminate]; injection Hs as <-.
Lemma demo_closed_new : closed schema_new.
Proof. intros fs f Hfs Hf Es. cbn in Hfs. destruct Hfs as [<-|[<-|[]]]; cbn in Hf; repeat (destruct Hf as [<-|Hf]; [cbn; auto; discriminate Es|]); contradiction. Qed.
Example persistent_demo_upgrades : upgrades env0 64 demo_hd schema_old schema_new old_init0 id_rename id_rename (fun s => s) (TStruct 1 outer_old) (TStruct 1 outer_new).
Proof.
  assert (HH : has_ty (limited env0 64) header_ty (header_val demo_hd)) by (cbn; unfold fits, small, range; cbn; repeat (split || constructor); try lia; vm_compute; congruence).
  destruct vts_demo_program as (PO & CN & KT & IN).
  split; [|split; [|split; [exact vts_demo_evolves|split; [exact KT|split]]]].
  - split; [exact PO| | | |exact HH].
    + split; [schema_cases; cbn; auto 10|]. intros t Ht. cbn in Ht. repeat (destruct Ht as [<-|Ht]; [cbn; lia|]). contradiction.
    + cbn. repeat split; lia.
    + cbn. repeat split; auto; try (repeat constructor; cbn; intuition discriminate); intros; intuition (subst; auto).
  - split; [|exact IN| | |exact HH].
    + split; [exact CN|]. split; [split; vm_compute; reflexivity|]. cbn. unfold fits, small, range. cbn. repeat (split || constructor); try lia; try (vm_compute; congruence).
    + cbn. repeat split; lia.
    + cbn. repeat split; auto; try (repeat constructor; cbn; intuition discriminate); intros; intuition (subst; auto).
  - split; [reflexivity|exact Logic.I].
  - cbn. unfold range, fits, small. cbn. repeat split; auto; try lia.
Qed.
Notation demo_old := (TStruct 1 outer_old). Notation demo_new := (TStruct 1 outer_new).
Definition obytes0 := file_bytes env_old schema_old demo_old demo_hd 64 toy_hash 2 50.
Definition oread0 := file_read env_old schema_old id_rename demo_old demo_hd 64 toy_hash 2 50.
Definition nbytes0 := file_bytes env0 schema_new demo_new demo_hd 64 toy_hash 2 50.
Definition nread0 := file_read env0 schema_new id_rename demo_new demo_hd 64 toy_hash 2 50.
Definition value_next := VTup [VInt 8; VList []; VStr []; VTup [VInt 9; VStr []]].
Definition empty_storage : storage := {| master := fresh_file []; backup := fresh_file [] |}.
(** The old program saved a value and crashed while it was overwriting the master with
    another, with 100 bytes written, after the backup was complete; the master is garbage.
    The new program finds the second value, converted. *)
Example persistent_demo_crash :
  let st := run (save obytes0 value_old empty_storage) (firstn (length (write_ops obytes0 Backup value_next) + 101) (save_ops obytes0 value_next)) in
  let st' := {| master := fresh_file [1; 2; 3]%Z; backup := fresh_file (data (backup st)) |} in
  length (obytes0 value_old) = 283%nat /\ crash (disk_torn cut) st st' /\ 
  match load nbytes0 nread0 st' with Ok (r, s) => r = Some (VTup [VInt 7; VStr []; VTup [VInt 0; VInt 9]]) /\ data (backup s) = [] | _ => False end.
Proof.
  cbv zeta. split; [vm_compute; reflexivity|]. split.
  - split; eexists; (split; [reflexivity|]); vm_compute; [|reflexivity]. split; intros X; discriminate X.
  - vm_compute. auto.
Qed.
(** A file that is cut, one with a changed byte, and one of another version. *)
Example persistent_demo_refused :
  nread0 (obytes0 value_old) = Ok (value_new, 283%nat) /\ nread0 (firstn 250 (obytes0 value_old)) = Throw EndOfFile /\ nread0 (firstn 240 (obytes0 value_old)) = Throw Corruption /\
  nread0 (set_nth (obytes0 value_old) 200 1%Z) = Throw Corruption /\
  file_read env0 schema_new id_rename demo_new {| format := str "Demo"; version := 2 |} 64 toy_hash 2 50 (obytes0 value_old) = Throw IoError.
Proof. vm_compute. auto 8. Qed.

(** ** Where the code does otherwise *)
(** With a crash that leaves something behind a complete block, load() returns false and
    has changed the value: it is assigned before the end of the file is checked. *)
Theorem persistent_object_refuted : exists (v cur : val) (st' : storage),
  let rd := file_read env_old schema_old id_rename demo_old demo_hd 64 toy_hash 2 273 in let enc := file_bytes env_old schema_old demo_old demo_hd 64 toy_hash 2 273 in
  exec enc rd (has_ty env_old demo_old) (disk_torn (unforged toy_hash 273)) empty_storage true [Attempted v] st' false /\
  (exists st'', object_load env_old schema_old id_rename demo_old demo_hd 64 toy_hash 2 273 {| value := cur; files := st' |} = Ok (false, {| value := v; files := st'' |})) /\ v <> cur.
Proof.
  exists value_old, value_next. set (enc := file_bytes env_old schema_old demo_old demo_hd 64 toy_hash 2 273).
  exists {| master := fresh_file []; backup := fresh_file (enc value_old ++ [0%Z]) |}. cbv zeta. split; [|split; [|discriminate]].
  - eapply x_save_crash with (k := 274%nat) (st1 := {| master := fresh_file []; backup := fresh_file (enc value_old ++ [0%Z]) |}); [|split; eexists; (split; [reflexivity|])|constructor].
    + cbn. unfold fits, small, range. cbn. repeat (split || constructor); try lia; vm_compute; congruence.
    + vm_compute. reflexivity.
    + replace (dirty _) with true by (vm_compute; reflexivity). split; [|intros X; vm_compute in X; discriminate]. intros _.
      match goal with |- unforged _ _ _ ?c => replace c with (enc value_old) by (vm_compute; reflexivity) end.
      assert (L : length (enc value_old) = 273%nat) by (vm_compute; reflexivity). revert L. generalize (enc value_old). intros c L [|[|i]] p Ep.
      * exists 273%nat. cbn [Nat.mul skipn]. rewrite firstn_app, L, Nat.sub_diag, firstn_firstn. cbn [firstn]. now rewrite app_nil_r.
      * exfalso. replace (1 * 273)%nat with (length c) in Ep by lia. rewrite skipn_app, Nat.sub_diag, skipn_all in Ep. cbn [skipn app] in Ep. apply (f_equal (@List.length Z)) in Ep. rewrite app_length in Ep. cbn [length toy_hash] in Ep. rewrite firstn_length in Ep. cbn [length] in Ep. lia.
      * exfalso. rewrite skipn_all2 in Ep by (rewrite app_length, L; cbn [length]; lia). apply (f_equal (@List.length Z)) in Ep. rewrite firstn_nil, app_length in Ep. cbn in Ep. lia.
  - eexists. vm_compute. reflexivity.
Qed.
(** OptionalObject without files: save() does nothing, but load() throws although it is
    supposed to leave the defaults. *)
Theorem optional_object_refuted : exists (cur : val),
  optional_save env0 schema_new demo_new demo_hd 64 toy_hash 2 50 cur None = None /\ optional_load env0 schema_new id_rename demo_new demo_hd 64 toy_hash 2 50 cur None = Throw IoError.
Proof. exists value_new. split; reflexivity. Qed.
