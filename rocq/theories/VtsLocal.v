(** The version tolerant reader depends only on the bytes it consumes. *)
From Coq Require Import ZifyBool ZifyNat.
From Verif Require Import Common Int2ArrayModel CodecModel CodecSpec CodecLocal VtsModel VtsSpec VtsEvolve VtsProps StreamRel.
Local Open Scope Z_scope.

(** Two byte streams, the second of which goes on with [x]. *)
Definition longer (x : bytes) (k : nat) (s1 s2 : bytes) : Prop := s2 = s1 ++ x /\ (length s1 <= k)%nat.
Definition eof_or_same (e : exn) (o : outcome) : Prop := e = EndOfFile \/ o = Failed e.
Lemma longer_le x k k' s1 s2 : longer x k s1 s2 -> (k <= k')%nat -> longer x k' s1 s2.
Proof. intros [E L] L'. split; [auto|lia]. Qed.
Lemma eof_done e o : eof_or_same e Done -> eof_or_same e o.
Proof. intros [H|H]; [now left|discriminate]. Qed.
Lemma eof_refl e : eof_or_same e (Failed e).
Proof. now right. Qed.
Lemma longer_raw x n k s1 s2 : longer x k s1 s2 -> sres eof_or_same (longer x) (k - n) (get_raw n s1) (get_raw n s2).
Proof.
  intros [-> L]. unfold get_raw. destruct (Nat.ltb_spec (length s1) n) as [H|H]; [now left|].
  destruct (Nat.ltb_spec (length (s1 ++ x)) n) as [H2|H2]; [rewrite app_length in H2; lia|].
  rewrite firstn_app, skipn_app. replace (n - length s1)%nat with O by lia. cbn [firstn skipn]. rewrite app_nil_r.
  eexists. split; [reflexivity|]. split; [reflexivity|]. rewrite skipn_length. lia.
Qed.
Lemma longer_len x n k s1 s2 y : longer x k s1 s2 -> get_raw n s1 = Ok y -> (n <= k)%nat.
Proof. intros [-> L]. unfold get_raw. destruct (Nat.ltb_spec (length s1) n); [discriminate|]. intros _. lia. Qed.

Section Local.
Context (E : env) (sch : schema) (rename : nat -> fname -> fname) (type_map : fname -> fname) (allow_delete : bool).
Notation vread := (vread E sch rename type_map allow_delete).

(** More bytes at the end change nothing but what is left, unless the bytes ran out. *)
Theorem vts_local t old s x :
  match vread t old s with
  | Ok (v, r) => vread t old (s ++ x) = Ok (v, r ++ x)
  | Throw EndOfFile => True
  | Throw e => vread t old (s ++ x) = Throw e
  | UB => vread t old (s ++ x) = UB
  end.
Proof.
  unfold vread. pose proof (vread_from_comp get_raw get_raw (@length Z) (@length Z) (longer x) eof_or_same (longer_le x) eof_done eof_refl (longer_raw x) (longer_len x)) as C.
  assert (SZ : forall k s1 s2, longer x k s1 s2 -> exists k', (k' <= k)%nat /\ longer x k' s1 s2 /\ (k' <= length s1)%nat /\ (k' <= length s2)%nat).
  { intros k s1 s2 [-> L]. exists (length s1). rewrite app_length. repeat split; auto; lia. }
  specialize (C SZ E sch rename type_map allow_delete t old (length s) (length s) s (s ++ x) (Nat.le_refl _) (conj eq_refl (Nat.le_refl _))).
  destruct (vread_from get_raw (@length Z) E sch rename type_map allow_delete t old s) as [[v r]|e|]; cbn [sres] in C.
  - destruct C as (r2 & -> & [-> _]). reflexivity.
  - assert (K : e = EndOfFile \/ vread_from get_raw (@length Z) E sch rename type_map allow_delete t old (s ++ x) = Throw e).
    { destruct C as [->|C]; [now left|]. right. destruct (vread_from get_raw (@length Z) E sch rename type_map allow_delete t old (s ++ x)); cbn [ended] in C; try discriminate. now injection C as ->. }
    destruct K as [->|K]; [exact Logic.I|]. destruct e; auto.
  - exact C.
Qed.
(** Any proper prefix of bytes that are read to the end gives EndOfFile. *)
Theorem vts_prefix t old a b v : vread t old (a ++ b) = Ok (v, []) -> b <> [] -> vread t old a = Throw EndOfFile.
Proof.
  intros R N. pose proof (vts_local t old a b) as L. destruct (vread t old a) as [[w r]|e|].
  - rewrite L in R. injection R as _ R. apply app_eq_nil in R as [_ R]. contradiction.
  - destruct e; auto; rewrite R in L; discriminate.
  - rewrite R in L. discriminate.
Qed.
End Local.

(** C32 for the versioned format: a proper prefix of what an old program has written
    makes the reader of any program that could read it throw EndOfFileException. *)
Theorem vts_truncated E O N rename type_map rho t1 v1 t2 d v2 bs k : program E O -> closed N -> known_types O N type_map -> in_schema O t1 ->
  mig E N rename type_map rho t1 v1 (Some (t2, d, v2)) -> vwrite E O t1 v1 = Ok bs -> (k < length bs)%nat ->
  vread E N rename type_map true t2 d (firstn k bs) = Throw EndOfFile.
Proof.
  intros HP HN HK HI HM W L. eapply (vts_prefix E N rename type_map true t2 d _ (skipn k bs)).
  - rewrite firstn_skipn, <- (app_nil_r bs). eapply vread_vwrite; eauto.
  - intros K. apply (f_equal (@length Z)) in K. rewrite skipn_length in K. cbn in K. lia.
Qed.
(** Every prefix of the bytes of the example of VtsProps. *)
Example vts_truncated_demo :
  match vwrite env0 schema_old (TStruct 1 outer_old) value_old with
  | Ok bs => length bs = 251%nat /\ map (fun k => vread env0 schema_new id_rename id_type true (TStruct 1 outer_new) value_default (firstn k bs)) [0; 1; 100; 250]%nat = repeat (Throw EndOfFile) 4
  | _ => False
  end.
Proof. vm_compute. auto. Qed.
