(** Hash streams (C28, C29, C49). *)
From Coq Require Import ZifyBool ZifyNat.
From Verif Require Import Common HashStreamModel HashStreamSpec HashStreamProofs.

Section Props.
Context (H : bytes -> bytes) (h B : nat).

(** The stored file: the blocks of the data, each followed by its hash. *)
Theorem hash_stream_layout ws : (forall x, length (H x) = h) -> h < B ->
  exists bs, hwritten H h B ws = Ok (stored_blocks H bs) /\ blocks_of (B - h) (concat ws) bs.
Proof. intros HL HB. now apply hwritten_ok. Qed.

(** C28: whatever the pieces, what is read is what was written, and then the end. *)
Theorem hash_stream_round_trip ws : (forall x, length (H x) = h) -> h < B ->
  exists f, hwritten H h B ws = Ok f /\ forall os, hrun H h B (hin_new f) os = srun (concat ws) true os.
Proof.
  intros HL HB. destruct (hwritten_ok H h B HL HB ws) as (bs & E & Bo). exists (stored_blocks H bs). split; [exact E|].
  intros os. apply hrun_ok; auto. apply R_new. now apply (decodes_stored H h).
Qed.

(** Any file at all is read without undefined behaviour up to the first exception, as the
    data that its good blocks hold. *)
Theorem hash_stream_any_file f : (forall x, length (H x) = h) -> h < B ->
  exists d e, decodes H B f d e /\ forall os, hrun H h B (hin_new f) os = srun d e os.
Proof.
  intros HL HB. destruct (decodes_total H h B HL HB (length f) f) as (d & e & D); [lia|]. exists d, e. split; [exact D|].
  intros os. apply hrun_ok; auto. now apply R_new.
Qed.

Lemma blocks_full_prefix d bs i : blocks_of (B - h) d bs -> i < length bs -> Forall (fun p => length p = B - h) (firstn i bs).
Proof.
  intros Bo. revert i. induction Bo as [|d N L|p d bs L N Bo IH]; intros i Li; cbn [length] in *; [lia| |].
  - replace i with 0 by lia. constructor.
  - destruct i as [|i]; [constructor|]. cbn [firstn]. constructor; [auto|apply IH; lia].
Qed.

(** C29: the first altered block is refused unless it is again some bytes and their hash;
    what is delivered before is the data of the blocks before it. *)
Theorem hash_stream_detects d bs i r b : (forall x, length (H x) = h) -> h < B ->
  blocks_of (B - h) d bs -> nth_error bs i = Some b -> r <> [] -> firstn B r <> b ++ H b ->
  (exists b', firstn B r = b' ++ H b' /\ b' <> b) \/
  (forall os, hrun H h B (hin_new (stored_blocks H (firstn i bs) ++ r)) os = srun (concat (firstn i bs)) false os).
Proof.
  intros HL HB Bo Ni Nr Nb. assert (Li : i < length bs) by (apply nth_error_Some; congruence).
  destruct (decodes_total H h B HL HB (length r) r) as (d' & e' & D); [lia|]. inversion D; subst; [congruence| |].
  - left. eexists. split; [eassumption|]. intros ->. congruence.
  - right. intros os. apply hrun_ok; auto. apply R_new. rewrite <- (app_nil_r (concat _)). apply (decodes_prefix H h); auto. eapply blocks_full_prefix; eauto.
Qed.
(** Whole blocks missing at the end are not noticed. *)
Theorem hash_stream_cut_at_block d bs i : (forall x, length (H x) = h) -> h < B -> blocks_of (B - h) d bs -> i < length bs ->
  forall os, hrun H h B (hin_new (stored_blocks H (firstn i bs))) os = srun (concat (firstn i bs)) true os.
Proof.
  intros HL HB Bo Li os. apply hrun_ok; auto. apply R_new. rewrite <- (app_nil_r (concat _)), <- (app_nil_r (stored_blocks _ _)).
  apply (decodes_prefix H h); auto; [eapply blocks_full_prefix; eauto|constructor].
Qed.
End Props.

(** ** Concrete cases: a hash of two bytes and blocks of five *)
Definition toy_hash (x : bytes) : bytes := [fold_left Z.add x 0 mod 256; Z.of_nat (length x)]%Z.
Example hash_stream_write_demo : hwritten toy_hash 2 5 [[1; 2; 3; 4]; []; [5; 6; 7]]%Z = Ok [1; 2; 3; 6; 3; 4; 5; 6; 15; 3; 7; 7; 1]%Z.
Proof. vm_compute. reflexivity. Qed.
Example hash_stream_read_demo :
  hrun toy_hash 2 5 (hin_new [1; 2; 3; 6; 3; 4; 5; 6; 15; 3; 7; 7; 1]%Z) [HEnd; HRead 2; HRead 3; HRead 9; HEnd; HRead 1] =
  ([HIsEnd false; HGot [1; 2]; HGot [3; 4; 5]; HGot [6; 7]; HIsEnd true; HGot []]%Z, Ok tt).
Proof. vm_compute. reflexivity. Qed.
Example hash_stream_corruption_demo :
  hrun toy_hash 2 5 (hin_new [1; 2; 3; 6; 3; 4; 9; 6; 15; 3; 7; 7; 1]%Z) [HRead 3; HRead 1] = ([HGot [1; 2; 3]%Z], Throw Corruption).
Proof. vm_compute. reflexivity. Qed.

(** C49: after the exception the stream cannot be used, m_i is invalidated. *)
Theorem hash_stream_reuse_refuted :
  exists (H : bytes -> bytes) (h B : nat) (f : bytes) (s : hin), (forall x, length (H x) = h) /\ h < B /\
    hread H h B (hin_new f) 1 = (s, Throw Corruption) /\ snd (hread H h B s 1) = UB /\ snd (hend H h B s) = UB.
Proof.
  exists toy_hash, 2, 5, [9; 9; 9]%Z. eexists. split; [reflexivity|]. split; [lia|]. vm_compute. auto.
Qed.
