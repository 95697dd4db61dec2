(** The atomic storage keeps one value through crashes (C25, C26, C27). *)
From Coq Require Import ZifyBool ZifyNat.
From Verif Require Import Common AStoreModel AStoreSpec AStoreProofs.

Section Props.
Context {V : Type} (enc : V -> bytes) (rd : bytes -> res (V * nat)) (good : V -> Prop) (reads : bytes -> option V -> Prop) (torn : bytes -> bytes -> bytes -> Prop).

(** Every history is one of an atomic value, and Load shows that value. *)
Theorem atomic_storage_history st o tr st' b' : format_ok enc rd good reads torn -> stored reads st o -> exec enc rd good torn st true tr st' b' ->
  exists o' st'', allowed o tr o' /\ load enc rd st' = Ok (o', st'') /\ stored reads st'' o'.
Proof.
  intros FO S0 X. destruct (exec_allowed enc rd good reads torn FO _ _ _ _ _ X o S0) as (o' & A & R).
  destruct (load_ok enc rd good reads torn FO st' o') as (st'' & E & S2).
  { destruct b'; [eapply stored_holds; eauto|exact R]. }
  eauto 8.
Qed.

(** C25: a crash anywhere in Save. *)
Theorem atomic_storage_save_crash st v1 v2 k st' : format_ok enc rd good reads torn -> stored reads st (Some v1) -> good v2 ->
  crash torn (run st (firstn k (save_ops enc v2))) st' ->
  exists r st'', load enc rd st' = Ok (Some r, st'') /\ (r = v1 \/ r = v2) /\ stored reads st'' (Some r).
Proof.
  intros FO S0 Hg C. destruct (save_crash enc rd good reads torn FO _ _ _ _ _ Hg S0 C) as [K|K]; destruct (load_ok enc rd good reads torn FO _ _ K) as (st'' & E & S2); eauto 8.
Qed.
(** A completed Save is there whatever happened before it. *)
Theorem atomic_storage_save_load st v : format_ok enc rd good reads torn -> good v ->
  exists st', load enc rd (save enc v st) = Ok (Some v, st') /\ stored reads st' (Some v).
Proof. intros FO Hg. apply (load_ok enc rd good reads torn FO). eapply stored_holds; eauto. eapply save_ok; eauto. Qed.
(** New files hold no value. *)
Theorem atomic_storage_new : format_ok enc rd good reads torn -> stored reads {| master := fresh_file []; backup := fresh_file [] |} None.
Proof. intros FO. repeat split. apply (fo_empty _ _ _ _ _ FO). Qed.

Lemma interrupted_any n : forall st b st' b' o, format_ok enc rd good reads torn -> holds reads st o -> b = false ->
  exec enc rd good torn st b (repeat Interrupted n) st' b' -> holds reads st' o.
Proof.
  induction n as [|n IH]; intros st b st' b' o FO Ho -> X; cbn [repeat] in X; inversion X; subst; auto.
  eapply IH; [auto| |reflexivity|eassumption]. eapply load_crash; eauto.
Qed.
(** C26: Load cut short by a crash any number of times. *)
Theorem atomic_storage_recovery_idempotent st0 o tr st b n st' b' : format_ok enc rd good reads torn -> stored reads st0 o ->
  exec enc rd good torn st0 true tr st b -> exec enc rd good torn st b (repeat Interrupted n) st' b' ->
  exists r s1 s2, load enc rd st = Ok (r, s1) /\ load enc rd st' = Ok (r, s2).
Proof.
  intros FO S0 X Y. destruct (exec_allowed enc rd good reads torn FO _ _ _ _ _ X o S0) as (r & _ & R).
  assert (H : holds reads st r) by (destruct b; [eapply stored_holds; eauto|exact R]).
  destruct (load_ok enc rd good reads torn FO _ _ H) as (s1 & E1 & _). exists r, s1. destruct n as [|n]; cbn [repeat] in Y; inversion Y; subst.
  - exists s1. auto.
  - assert (H2 : holds reads st' r).
    { eapply interrupted_any; [exact FO| |reflexivity|eassumption]. eapply load_crash; eauto. }
    destruct (load_ok enc rd good reads torn FO _ _ H2) as (s2 & E2 & _). eauto.
Qed.

(** C27, the part that holds: an error in Save followed by a completed Load. *)
Theorem atomic_storage_failed_save_load_partial st o v k : format_ok enc rd good reads torn -> good v -> stored reads st o ->
  exists r st1, load enc rd (run st (firstn k (save_ops enc v))) = Ok (r, st1) /\ stored reads st1 r /\ (r = o \/ r = Some v).
Proof. intros FO. eapply failed_load; eauto. Qed.
End Props.

(** The process dies and the system goes on: the format only has to refuse proper prefixes. *)
Theorem process_crash_format {V} (enc : V -> bytes) rd (good : V -> Prop) :
  (forall v, good v -> accepts rd (enc v) v) -> rejects rd [] -> (forall v k, good v -> k < length (enc v) -> rejects rd (firstn k (enc v))) ->
  format_ok enc rd good (any_file rd good) process_torn.
Proof.
  intros H1 H2 H3. split; unfold process_torn, any_file; auto.
  - intros c o [H _]. exact H.
  - intros c v [_ H]. exact H.
  - intros v H. split; auto. now apply H1.
  - intros v k c Hg ->. destruct (le_lt_dec (length (enc v)) k) as [L|L]; [right; rewrite firstn_all2 by lia; split; auto; now apply H1|left; split; auto; now apply H3].
  - intros b o c _ ->. auto.
Qed.

(** ** A concrete format: the length and the bytes *)
Definition toy_enc (v : bytes) : bytes := Z.of_nat (length v) :: v.
Definition toy_rd (c : bytes) : res (bytes * nat) :=
  match c with
  | [] => Throw EndOfFile
  | n :: r => if (n <? 0)%Z then Throw Corruption else
              if Z.to_nat n <=? length r then Ok (firstn (Z.to_nat n) r, S (Z.to_nat n)) else Throw EndOfFile
  end.
Definition any (_ : bytes) : Prop := True.
Lemma toy_ok : format_ok toy_enc toy_rd any (any_file toy_rd any) process_torn.
Proof.
  apply process_crash_format.
  - intros v _. unfold accepts, toy_rd, toy_enc. destruct (Z.ltb_spec (Z.of_nat (length v)) 0); [lia|]. rewrite Nat2Z.id, Nat.leb_refl, firstn_all. reflexivity.
  - left. exists EndOfFile. cbn. auto.
  - intros v [|k] _ H; left; exists EndOfFile; (split; [|auto]); [reflexivity|]. unfold toy_rd, toy_enc in *. cbn [firstn length] in *.
    destruct (Z.ltb_spec (Z.of_nat (length v)) 0); [lia|]. rewrite Nat2Z.id. destruct (Nat.leb_spec (length v) (length (firstn k v))) as [L|L]; [|auto].
    rewrite firstn_length in L. lia.
Qed.

Definition astart (v : bytes) : storage := save toy_enc v {| master := fresh_file []; backup := fresh_file [] |}.
(** A crash in the middle of the write of the master: the torn master is not used. *)
Example atomic_storage_demo :
  let st := run (astart [1; 2; 3]%Z) (firstn 9 (save_ops toy_enc [7; 8]%Z)) in
  let st' := {| master := fresh_file (data (master st)); backup := fresh_file (data (backup st)) |} in
  crash process_torn st st' /\ data (master st') = [2; 7; 2; 3]%Z /\ data (backup st') = [2; 7; 8]%Z /\
  match load toy_enc toy_rd st' with Ok (r, s) => r = Some [7; 8]%Z /\ data (master s) = [2; 7; 8]%Z /\ data (backup s) = [] | _ => False end.
Proof.
  cbv zeta. split; [|vm_compute; auto 8]. split; eexists; (split; [reflexivity|]); vm_compute; reflexivity.
Qed.
(** A crash in the middle of the write of the backup, and a Load that crashes too. *)
Example atomic_storage_recovery_demo :
  let st := run (astart [1; 2; 3]%Z) (firstn 3 (save_ops toy_enc [7; 8]%Z)) in
  let st' := {| master := fresh_file (data (master st)); backup := fresh_file (data (backup st)) |} in
  let st1 := run st' (firstn 2 (load_ops toy_enc toy_rd st')) in
  data (backup st') = [2; 7]%Z /\ data (backup st1) = [] /\ load_ops toy_enc toy_rd st' = clear_ops /\
  match load toy_enc toy_rd st' with Ok (r, s) => r = Some [1; 2; 3]%Z | _ => False end /\
  match load toy_enc toy_rd st1 with Ok (r, s) => r = Some [1; 2; 3]%Z | _ => False end.
Proof. vm_compute. auto 8. Qed.

(** C27: Save(v2) fails in the write of the master and the process goes on; Save(v3) then
    crashes in the write of the backup.  Both files are torn: nothing can be loaded. *)
Theorem atomic_storage_failed_save_refuted :
  exists (v1 v2 v3 : bytes) (k j : nat) (st st' : storage),
    format_ok toy_enc toy_rd any (any_file toy_rd any) process_torn /\ stored (any_file toy_rd any) st (Some v1) /\
    crash process_torn (run (run st (firstn k (save_ops toy_enc v2))) (firstn j (save_ops toy_enc v3))) st' /\
    exists st'', load toy_enc toy_rd st' = Ok (None, st'').
Proof.
  set (st := astart [1]%Z). set (s := run (run st (firstn 8 (save_ops toy_enc [7; 8]%Z))) (firstn 2 (save_ops toy_enc [4; 5; 6]%Z))).
  exists [1]%Z, [7; 8]%Z, [4; 5; 6]%Z, 8, 2, st, {| master := fresh_file (data (master s)); backup := fresh_file (data (backup s)) |}.
  split; [apply toy_ok|]. split; [now apply (save_ok toy_enc toy_rd any (any_file toy_rd any) process_torn toy_ok)|].
  split; [split; eexists; (split; [reflexivity|]); vm_compute; reflexivity|]. eexists. vm_compute. reflexivity.
Qed.
(** In the same way Load can return a value that nobody saved, bytes of v3 and of v2. *)
Theorem atomic_storage_mixture_refuted :
  exists (v1 v2 v3 r : bytes) (k j : nat) (st st' : storage),
    format_ok toy_enc toy_rd any (any_file toy_rd any) process_torn /\ stored (any_file toy_rd any) st (Some v1) /\
    crash process_torn (run (run st (firstn k (save_ops toy_enc v2))) (firstn j (save_ops toy_enc v3))) st' /\
    (exists st'', load toy_enc toy_rd st' = Ok (Some r, st'')) /\ r <> v1 /\ r <> v2 /\ r <> v3.
Proof.
  set (st := astart [1]%Z). set (s := run (run st (firstn 8 (save_ops toy_enc [10; 11]%Z))) (firstn 3 (save_ops toy_enc [20; 21]%Z))).
  exists [1]%Z, [10; 11]%Z, [20; 21]%Z, [20; 11]%Z, 8, 3, st, {| master := fresh_file (data (master s)); backup := fresh_file (data (backup s)) |}.
  split; [apply toy_ok|]. split; [now apply (save_ok toy_enc toy_rd any (any_file toy_rd any) process_torn toy_ok)|].
  split; [split; eexists; (split; [reflexivity|]); vm_compute; reflexivity|].
  split; [eexists; vm_compute; reflexivity|]. split; [discriminate|]. split; discriminate.
Qed.
