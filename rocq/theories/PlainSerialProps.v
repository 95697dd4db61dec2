(** PlainSerializable (C120). *)
From Coq Require Import ZifyBool ZifyNat.
From Verif Require Import Common Int2ArrayModel Int2ArrayProps CodecModel CodecSpec CodecProofs CodecLocal CodecProps PlainSerialModel.
Local Open Scope Z_scope.

Section Props.
Context (E : env) (torn : ty -> val -> bytes -> val).
Local Notation ps_reads := (ps_reads E torn). Local Notation ps_writes := (ps_writes E).

(** What the objects contain is written whole. *)
Theorem pserial_write_total : forall os, Forall (fun o => has_ty E (fst o) (snd o)) os -> exists bs, ps_writes os = Ok bs /\ Forall is_byte bs.
Proof.
  induction 1 as [|[t v] os H F (b & Eb & Bb)]; cbn [PlainSerialModel.ps_writes]; [eauto|]. destruct (codec_write_total E t v H) as (a & Ea & Ba). unfold ps_write. rewrite Ea, Eb. cbn [rbind]. eexists. split; [reflexivity|]. now apply Forall_app.
Qed.
(** Objects of the same types, whatever they contain, are read back as what was written, and only the written bytes are consumed. *)
Theorem pserial_round_trip : forall os ms bs rest, Forall (fun o => wf_ty E (fst o) /\ has_ty E (fst o) (snd o)) os -> map fst ms = map fst os ->
  ps_writes os = Ok bs -> ps_reads true ms (bs ++ rest) = (Ok rest, map snd os).
Proof.
  induction os as [|[t v] os IH]; intros [|[t' m] ms] bs rest F L W; cbn in L; try discriminate.
  - injection W as <-. reflexivity.
  - injection L as -> L. inversion F as [|? ? [Hw HT] F']; subst. cbn [PlainSerialModel.ps_writes PlainSerialModel.ps_reads fst snd] in *. unfold ps_write in W. destruct (pwrite E t v) as [a| |] eqn:Ea; cbn [rbind] in W; try discriminate. destruct (ps_writes os) as [b| |] eqn:Eb; cbn [rbind] in W; try discriminate.
    injection W as <-. unfold ps_read. rewrite <- app_assoc. rewrite (codec_round_trip E t v _ a) by (auto; now apply fresh_default). rewrite (IH ms b rest F' L eq_refl). reflexivity.
Qed.
(** If the end of the bytes is missing, the objects that are whole are read, the others keep what they contain, and EndOfFile is thrown. *)
Theorem pserial_truncated : forall os ms a b, Forall (fun o => wf_ty E (fst o) /\ has_ty E (fst o) (snd o)) os -> map fst ms = map fst os ->
  ps_writes os = Ok (a ++ b) -> b <> [] ->
  exists n p c q, (n < length os)%nat /\ a = p ++ c /\ ps_writes (firstn n os) = Ok p /\ ps_writes (firstn 1 (skipn n os)) = Ok (c ++ q) /\ q <> [] /\
    ps_reads true ms a = (Throw EndOfFile, firstn n (map snd os) ++ skipn n (map snd ms)).
Proof.
  induction os as [|[t v] os IH]; intros [|[t' m] ms] a b F L W N; cbn in L; try discriminate.
  - injection W as W. destruct a, b; try discriminate. congruence.
  - injection L as -> L. inversion F as [|? ? [Hw HT] F']; subst. cbn [PlainSerialModel.ps_writes fst snd] in *. unfold ps_write in W. destruct (pwrite E t v) as [w| |] eqn:Ew; cbn [rbind] in W; try discriminate. destruct (ps_writes os) as [x| |] eqn:Ex; cbn [rbind] in W; try discriminate.
    injection W as W. destruct (le_lt_dec (length w) (length a)) as [Le|Lt].
    + assert (exists c, a = w ++ c) as (c & ->).
      { exists (skipn (length w) a). assert (w = firstn (length w) a) as X. { transitivity (firstn (length w) (w ++ x)); [now rewrite firstn_app, Nat.sub_diag, firstn_all, app_nil_r|]. rewrite W, firstn_app. replace (length w - length a)%nat with 0%nat by lia. now rewrite app_nil_r. }
        rewrite X at 1. now rewrite firstn_skipn. }
      rewrite <- app_assoc in W. apply app_inv_head in W. subst x. destruct (IH ms c b F' L eq_refl N) as (n & p & d & q & Hn & -> & Wn & Wd & Nq & R). exists (S n), (w ++ p), d, q. cbn [length firstn skipn map snd PlainSerialModel.ps_writes PlainSerialModel.ps_reads]. unfold ps_write. rewrite Ew, Wn. cbn [rbind].
      split; [lia|]. split; [now rewrite app_assoc|]. split; [reflexivity|]. split; [exact Wd|]. split; [exact Nq|]. unfold ps_read. rewrite (codec_round_trip E t v _ w) by (auto; now apply fresh_default). now rewrite R.
    + assert (exists q, w = a ++ q) as (q & ->).
      { exists (skipn (length a) w). assert (a = firstn (length a) w) as X. { transitivity (firstn (length a) (a ++ b)); [now rewrite firstn_app, Nat.sub_diag, firstn_all, app_nil_r|]. rewrite <- W, firstn_app. replace (length a - length w)%nat with 0%nat by lia. now rewrite app_nil_r. }
        rewrite X at 1. now rewrite firstn_skipn. }
      assert (Nq : q <> []) by (intros ->; rewrite app_nil_r in Lt; lia). exists 0%nat, [], a, q. cbn [length firstn skipn map snd PlainSerialModel.ps_writes PlainSerialModel.ps_reads app]. unfold ps_write. rewrite Ew. cbn [rbind].
      split; [lia|]. split; [reflexivity|]. split; [reflexivity|]. split; [now rewrite app_nil_r|]. split; [exact Nq|]. unfold ps_read. rewrite (codec_truncated E t v _ a q) by (auto; now apply fresh_default). reflexivity.
Qed.
(** With any bytes: the first objects get values of their types, which depend only on the bytes, and the others keep what they contain; all
    are read exactly if nothing is thrown. *)
Theorem pserial_any_bytes : (forall c, strict (cmp E c)) -> forall ts s, Forall (wf_ty E) ts ->
  exists r vs, Forall2 (has_ty E) (firstn (length vs) ts) vs /\ ((exists rest, r = Ok rest) <-> length vs = length ts) /\
    forall ms, map fst ms = ts -> ps_reads true ms s = (r, vs ++ skipn (length vs) (map snd ms)).
Proof.
  intros Hc. induction ts as [|t ts IH]; intros s F.
  - exists (Ok s), []. split; [constructor|]. split; [split; eauto|]. intros [|m ms] L; [reflexivity|discriminate].
  - inversion F; subst. destruct (pread E t (default E t) s) as [[v s1]|e|] eqn:R.
    + destruct (IH s1 H2) as (r & vs & F2 & I & A). exists r, (v :: vs). cbn [length firstn]. split; [constructor; [eapply codec_any_bytes; eauto|exact F2]|]. split; [rewrite I; lia|].
      intros [|[t' m] ms] L; cbn in L; [discriminate|]. injection L as -> L. cbn [PlainSerialModel.ps_reads map snd skipn app]. unfold ps_read. rewrite R. now rewrite (A ms L).
    + exists (Throw e), []. split; [constructor|]. split; [split; [intros (x & ?); discriminate|discriminate]|]. intros [|[t' m] ms] L; cbn in L; [discriminate|]. injection L as -> L. cbn [PlainSerialModel.ps_reads map snd skipn app length]. unfold ps_read. now rewrite R.
    + exists UB, []. split; [constructor|]. split; [split; [intros (x & ?); discriminate|discriminate]|]. intros [|[t' m] ms] L; cbn in L; [discriminate|]. injection L as -> L. cbn [PlainSerialModel.ps_reads map snd skipn app length]. unfold ps_read. now rewrite R.
Qed.
(** Without [atomic] the result is the same for types without optionals, deques, sets and maps, unless something is thrown. *)
Theorem pserial_in_place_partial : forall ms s, Forall (fun o => wf_ty E (fst o) /\ replaced (fst o) /\ has_ty E (fst o) (snd o)) ms ->
  fst (ps_reads false ms s) = fst (ps_reads true ms s) /\ (forall rest, fst (ps_reads true ms s) = Ok rest -> snd (ps_reads false ms s) = snd (ps_reads true ms s)).
Proof.
  intros ms s F. revert s. induction F as [|[t m] ms (Hw & Hr & HT) F IH]; intros s; cbn [PlainSerialModel.ps_reads]; [auto|]. cbn [fst snd] in *. unfold ps_read. rewrite (codec_replaces_partial E t m s Hw Hr HT). destruct (pread E t (default E t) s) as [[v s1]|e|]; [|cbn [fst]; split; [auto|discriminate]..].
  destruct (IH s1) as [A B]. destruct (ps_reads false ms s1) as [r1 v1], (ps_reads true ms s1) as [r2 v2]. cbn [fst snd] in *. split; auto. intros rest Er. f_equal. eauto.
Qed.
(** For optionals it is not: an empty optional that is read leaves the old value. *)
Theorem pserial_in_place_refuted : forall t v bs rest, v <> VNone -> ps_writes [(TOpt t, VNone)] = Ok bs ->
  ps_reads false [(TOpt t, v)] (bs ++ rest) = (Ok rest, [v]) /\ ps_reads true [(TOpt t, v)] (bs ++ rest) = (Ok rest, [VNone]).
Proof. intros t v bs rest N W. injection W as <-. split; reflexivity. Qed.
End Props.

(** ** Examples *)
Definition ps_env : env := {| cmp := fun _ _ _ => false; init := fun _ => []; alloc_ok := fun n => n <? 1000; limit := None |}.
Definition ps_objects : list (ty * val) := [(TInt true 4, VInt 7); (TOpt (TInt true 2), VNone); (TVec (TInt true 2), VList [VInt 1; VInt 2])].
Definition ps_targets : list (ty * val) := [(TInt true 4, VInt 0); (TOpt (TInt true 2), VSome (VInt 9)); (TVec (TInt true 2), VList [VInt 5])].
Example pserial_example : exists bs, PlainSerialModel.ps_writes ps_env ps_objects = Ok bs /\
  PlainSerialModel.ps_reads ps_env (fun _ m _ => m) true ps_targets (bs ++ [3]) = (Ok [3], [VInt 7; VNone; VList [VInt 1; VInt 2]]) /\
  PlainSerialModel.ps_reads ps_env (fun _ m _ => m) true ps_targets (removelast bs) = (Throw EndOfFile, [VInt 7; VNone; VList [VInt 5]]) /\
  PlainSerialModel.ps_reads ps_env (fun _ m _ => m) false ps_targets bs = (Ok [], [VInt 7; VSome (VInt 9); VList [VInt 1; VInt 2]]).
Proof. exists (match PlainSerialModel.ps_writes ps_env ps_objects with Ok b => b | _ => [] end). vm_compute. repeat split. Qed.
