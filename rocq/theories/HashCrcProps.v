(** Hash streams with CRC-64 (C29, C30). *)
From Coq Require Import ZifyBool ZifyNat.
From Verif Require Import Common Int2ArrayModel Int2ArrayProps Crc64Model Crc64Props HashStreamModel HashStreamSpec HashStreamProofs HashStreamProps.

Lemma crc64_length seed x : length (crc64 seed x) = 8.
Proof. apply to_array_length. Qed.

(** Up to 8 consecutive altered bytes of the data of a block are always noticed. *)
Theorem crc_stream_detects_burst seed B d bs i r p a a' q : u64 seed -> 8 < B ->
  blocks_of (B - 8) d bs -> nth_error bs i = Some (p ++ a ++ q) ->
  length a = length a' -> length a <= 8 -> a <> a' -> Forall is_byte (p ++ a ++ q) -> Forall is_byte (p ++ a' ++ q) ->
  firstn B r = (p ++ a' ++ q) ++ crc64 seed (p ++ a ++ q) ->
  forall os, hrun (crc64 seed) 8 B (hin_new (stored_blocks (crc64 seed) (firstn i bs) ++ r)) os = srun (concat (firstn i bs)) false os.
Proof.
  intros U HB Bo Ni L L8 N F1 F2 Er.
  assert (Nc : crc64 seed (p ++ a ++ q) <> crc64 seed (p ++ a' ++ q)) by now apply crc64_detects_8_bytes.
  assert (Sp : forall b', (p ++ a' ++ q) ++ crc64 seed (p ++ a ++ q) <> b' ++ crc64 seed b').
  { intros b' E. apply Nc. assert (Lb : length (p ++ a' ++ q) = length b').
    { apply (f_equal (@length Z)) in E. rewrite !app_length, !crc64_length in E. rewrite !app_length. lia. }
    assert (S1 : forall (u v : list Z) k l, length u = length v -> u ++ k = v ++ l -> u = v /\ k = l).
    { induction u as [|h u IHu]; intros [|h' v] k l Lu Eu; cbn in *; try discriminate; auto. injection Eu as -> Eu. destruct (IHu v k l ltac:(lia) Eu) as [-> ->]. auto. }
    destruct (S1 _ _ _ _ Lb E) as [<- ->]. reflexivity. }
  assert (Nr : r <> []).
  { intros ->. rewrite firstn_nil in Er. apply (f_equal (@length Z)) in Er. rewrite app_length, crc64_length in Er. cbn in Er. lia. }
  destruct (hash_stream_detects (crc64 seed) 8 B d bs i r (p ++ a ++ q) (crc64_length seed) HB Bo Ni Nr) as [(b' & E & _)|K]; [| |exact K].
  - rewrite Er. apply Sp.
  - exfalso. rewrite Er in E. now apply Sp in E.
Qed.
(** And every alteration of the stored value itself. *)
Theorem crc_stream_detects_value seed B d bs i r b x : 8 < B -> blocks_of (B - 8) d bs -> nth_error bs i = Some b ->
  length x = 8 -> x <> crc64 seed b -> firstn B r = b ++ x ->
  forall os, hrun (crc64 seed) 8 B (hin_new (stored_blocks (crc64 seed) (firstn i bs) ++ r)) os = srun (concat (firstn i bs)) false os.
Proof.
  intros HB Bo Ni L N Er.
  assert (Sp : forall b', b ++ x <> b' ++ crc64 seed b').
  { intros b' E. apply N. assert (Lb : length b = length b').
    { apply (f_equal (@length Z)) in E. rewrite !app_length, !crc64_length in E. lia. }
    assert (S1 : forall (u v : list Z) k l, length u = length v -> u ++ k = v ++ l -> u = v /\ k = l).
    { induction u as [|h u IHu]; intros [|h' v] k l Lu Eu; cbn in *; try discriminate; auto. injection Eu as -> Eu. destruct (IHu v k l ltac:(lia) Eu) as [-> ->]. auto. }
    destruct (S1 _ _ _ _ Lb E) as [<- ->]. reflexivity. }
  assert (Nr : r <> []).
  { intros ->. rewrite firstn_nil in Er. apply (f_equal (@length Z)) in Er. rewrite app_length, L in Er. cbn in Er. lia. }
  destruct (hash_stream_detects (crc64 seed) 8 B d bs i r b (crc64_length seed) HB Bo Ni Nr) as [(b' & E & _)|K]; [| |exact K].
  - rewrite Er. apply Sp.
  - exfalso. rewrite Er in E. now apply Sp in E.
Qed.

(** Two blocks of three bytes, one byte of the second altered. *)
Example crc_stream_demo :
  match hwritten (crc64 default_seed) 8 11 [[1; 2; 3; 4]; [5; 6]]%Z with
  | Ok f => hrun (crc64 default_seed) 8 11 (hin_new f) [HRead 4; HRead 4] = ([HGot [1; 2; 3; 4]; HGot [5; 6]]%Z, Ok tt) /\
            hrun (crc64 default_seed) 8 11 (hin_new (firstn 12 f ++ [99%Z] ++ skipn 13 f)) [HRead 3; HRead 1] = ([HGot [1; 2; 3]%Z], Throw Corruption)
  | _ => False
  end.
Proof. vm_compute. auto. Qed.
