(** The atomic storage: crash safety. *)
From Coq Require Import ZifyBool ZifyNat.
From Verif Require Import Common AStoreModel AStoreSpec.

Section Proofs.
Context {V : Type} (enc : V -> bytes) (rd : bytes -> res (V * nat)).
Notation accepts := (accepts rd).
Notation rejects := (rejects rd).
Notation contents := (contents rd).

Lemma lf_accepts c v : accepts c v -> load_from_file rd c = Ok (Some v).
Proof. unfold AStoreSpec.accepts, load_from_file. intros ->. now rewrite Nat.eqb_refl. Qed.
Lemma lf_rejects c : rejects c -> load_from_file rd c = Ok None.
Proof.
  unfold AStoreSpec.rejects, load_from_file. intros [(e & -> & H)|(v & n & -> & H)].
  - destruct H as [->|[->|[->|[->| ->]]]]; reflexivity.
  - destruct (Nat.eqb_spec n (length c)); [contradiction|reflexivity].
Qed.
Lemma lf_contents c o : contents c o -> load_from_file rd c = Ok o.
Proof. destruct o; [apply lf_accepts|apply lf_rejects]. Qed.
Lemma contents_fun c o o' : contents c o -> contents c o' -> o = o'.
Proof. intros H1 H2. apply lf_contents in H1, H2. congruence. Qed.

(** ** Operations on one file *)
Definition fops (os : list fop) (f : file) : file := fold_left fstep os f.
Definition on_file (w : which) (st : storage) : file := match w with Master => master st | Backup => backup st end.
Definition set_file (w : which) (st : storage) (f : file) : storage :=
  match w with Master => {| master := f; backup := backup st |} | Backup => {| master := master st; backup := f |} end.
Lemma run_file w os : forall st, run st (map (pair w) os) = set_file w st (fops os (on_file w st)).
Proof.
  unfold run, fops. induction os as [|o os IH]; intros st; cbn [map fold_left].
  - destruct st, w; reflexivity.
  - rewrite IH. destruct w; reflexivity.
Qed.
Lemma run_app st a b : run st (a ++ b) = run (run st a) b.
Proof. unfold run. apply fold_left_app. Qed.

Definition wf (v : V) : list fop := [Seek0] ++ map WriteByte (enc v) ++ [Truncate; Flush].
Lemma write_ops_map w v : write_ops enc w v = map (pair w) (wf v).
Proof. unfold write_ops, wf. rewrite !map_app, map_map. reflexivity. Qed.
Definition cf : list fop := [Seek0; Truncate; Flush].
Lemma clear_ops_map : clear_ops = map (pair Backup) cf.
Proof. reflexivity. Qed.

Lemma fops_app a b f : fops (a ++ b) f = fops b (fops a f).
Proof. apply fold_left_app. Qed.
Lemma pad_len n l : length (pad n l) = n.
Proof. unfold pad. rewrite app_length, firstn_length, repeat_length. lia. Qed.
Lemma pad_le n l : n <= length l -> pad n l = firstn n l.
Proof. intros H. unfold pad. replace (n - length l) with 0 by lia. cbn. apply app_nil_r. Qed.

(** Writing bytes from the position on, inside or at the end of the file. *)
Lemma write_bytes bs : forall f, pos f <= length (data f) ->
  let f' := fops (map WriteByte bs) f in
  data f' = firstn (pos f) (data f) ++ bs ++ skipn (pos f + length bs) (data f) /\ pos f' = pos f + length bs /\
  disk f' = disk f /\ dirty f' = match bs with [] => dirty f | _ => true end.
Proof.
  induction bs as [|b bs IH]; intros f Hp; cbn [map fops fold_left].
  - cbn. rewrite Nat.add_0_r, firstn_skipn. auto.
  - specialize (IH (fstep f (WriteByte b))). change (fold_left fstep (map WriteByte bs) (fstep f (WriteByte b))) with (fops (map WriteByte bs) (fstep f (WriteByte b))).
    cbn [fstep] in *. cbv zeta in *. cbn [pos data disk dirty] in IH. rewrite pad_le in * by auto.
    assert (L : length (firstn (pos f) (data f)) = pos f) by (rewrite firstn_length; lia).
    destruct IH as (H1 & H2 & H3 & H4).
    { rewrite app_length, L. cbn. lia. }
    cbn [disk dirty fstep] in *. split; [|split; [|split]].
    + rewrite H1. clear H1 H2 H3 H4.
      replace (S (pos f)) with (length (firstn (pos f) (data f) ++ [b])) at 1 by (rewrite app_length, L; cbn; lia).
      replace (firstn (pos f) (data f) ++ b :: skipn (S (pos f)) (data f)) with ((firstn (pos f) (data f) ++ [b]) ++ skipn (S (pos f)) (data f)) by now rewrite <- app_assoc.
      rewrite firstn_app, Nat.sub_diag, firstn_all. cbn [firstn]. rewrite app_nil_r, <- app_assoc. cbn [app]. f_equal. f_equal. f_equal.
      rewrite skipn_app. rewrite app_length, L. cbn [length].
      rewrite (skipn_all2 (firstn (pos f) (data f) ++ [b])) by (rewrite app_length, L; cbn; lia). cbn [app].
      replace (S (pos f) + length bs - (pos f + 1)) with (length bs) by lia.
      clear. generalize (length bs) as m. intros m. 
      assert (E : forall i j (l : bytes), skipn j (skipn i l) = skipn (i + j) l).
      { induction i as [|i I]; intros j l; [reflexivity|]. destruct l; cbn; [now rewrite !skipn_nil|apply I]. }
      rewrite E. f_equal. lia.
    + rewrite H2. cbn. lia.
    + exact H3.
    + rewrite H4. destruct bs; reflexivity.
Qed.

(** The prefixes of a rewrite of a file. *)
Lemma firstn_map {A B} (g : A -> B) k l : firstn k (map g l) = map g (firstn k l).
Proof. revert l. induction k as [|k IH]; intros [|x l]; cbn; congruence. Qed.

Lemma wf_prefix v f k : let f' := fops (firstn k (wf v)) f in
  (k <= 1 /\ data f' = data f /\ disk f' = disk f /\ dirty f' = dirty f) \/
  (2 <= k /\ k < length (wf v) /\ disk f' = disk f /\ (dirty f' = true \/ (enc v = [] /\ dirty f' = dirty f)) /\
   (data f = [] -> exists j, data f' = firstn j (enc v))) \/
  (length (wf v) <= k /\ data f' = enc v /\ disk f' = enc v /\ dirty f' = false).
Proof.
  assert (W : forall j, let f' := fops (Seek0 :: map WriteByte (firstn j (enc v))) f in
    data f' = firstn j (enc v) ++ skipn (length (firstn j (enc v))) (data f) /\ pos f' = length (firstn j (enc v)) /\ disk f' = disk f /\
    dirty f' = match firstn j (enc v) with [] => dirty f | _ => true end).
  { intros j. change (fops (Seek0 :: map WriteByte (firstn j (enc v))) f) with (fops (map WriteByte (firstn j (enc v))) (fstep f Seek0)).
    destruct (write_bytes (firstn j (enc v)) (fstep f Seek0)) as (H1 & H2 & H3 & H4); [cbn; lia|]. cbn [fstep pos data disk dirty] in *. cbn [firstn app plus] in H1. auto. }
  destruct k as [|[|k]].
  - left. cbn. auto.
  - left. cbn. auto.
  - right. assert (L : length (wf v) = 3 + length (enc v)) by (unfold wf; cbn; rewrite app_length, map_length; cbn; lia).
    rewrite L. clear L. change (firstn (S (S k)) (wf v)) with (Seek0 :: firstn (S k) (map WriteByte (enc v) ++ [Truncate; Flush])).
    destruct (le_lt_dec (S k) (length (enc v))) as [Hk|Hk].
    + left. split; [lia|]. split; [lia|].
      rewrite firstn_app, map_length. replace (S k - length (enc v)) with 0 by lia. change (firstn 0 [Truncate; Flush]) with (@nil fop). rewrite app_nil_r, firstn_map.
      destruct (W (S k)) as (H1 & H2 & H3 & H4). split; [exact H3|]. split.
      { left. rewrite H4. destruct (enc v); [cbn in Hk; lia|reflexivity]. }
      intros E. exists (S k). rewrite H1, E, skipn_nil, app_nil_r. reflexivity.
    + assert (A : firstn (S k) (map WriteByte (enc v) ++ [Truncate; Flush]) = map WriteByte (enc v) ++ firstn (S k - length (enc v)) [Truncate; Flush]).
      { rewrite firstn_app, map_length. rewrite firstn_all2 by (rewrite map_length; lia). reflexivity. }
      rewrite A. rewrite app_comm_cons. rewrite fops_app. destruct (W (length (enc v))) as (H1 & H2 & H3 & H4). rewrite firstn_all in *.
      set (f1 := fops (Seek0 :: map WriteByte (enc v)) f) in *.
      assert (T : data (fstep f1 Truncate) = enc v).
      { cbn [fstep data]. rewrite H2, H1. rewrite pad_le by (rewrite app_length; lia). rewrite firstn_app, Nat.sub_diag, firstn_all. cbn. apply app_nil_r. }
      destruct (S k - length (enc v)) as [|[|[|m]]] eqn:Em; [lia| | |].
      * left. split; [lia|]. split; [lia|]. cbn [firstn fops fold_left]. split; [exact H3|]. split; [left; reflexivity|].
        intros _. exists (length (enc v)). now rewrite T, firstn_all.
      * right. split; [lia|]. cbn [firstn fops fold_left]. split; [exact T|]. split; [exact T|reflexivity].
      * right. split; [lia|]. cbn [firstn fops fold_left]. split; [exact T|]. split; [exact T|reflexivity].
Qed.
Lemma wf_all v f : data (fops (wf v) f) = enc v /\ disk (fops (wf v) f) = enc v /\ dirty (fops (wf v) f) = false.
Proof.
  pose proof (wf_prefix v f (length (wf v))) as H. cbv zeta in H. rewrite firstn_all in H.
  assert (L : length (wf v) = 3 + length (enc v)) by (unfold wf; cbn; rewrite app_length, map_length; cbn; lia).
  destruct H as [H|[H|H]]; [lia|lia|tauto].
Qed.

Lemma cf_prefix f k : let f' := fops (firstn k cf) f in
  (k <= 1 /\ data f' = data f /\ disk f' = disk f /\ dirty f' = dirty f) \/
  (k = 2 /\ data f' = [] /\ disk f' = disk f /\ dirty f' = true) \/
  (3 <= k /\ data f' = [] /\ disk f' = [] /\ dirty f' = false).
Proof.
  destruct k as [|[|[|k]]]; [left; cbn; auto|left; cbn; auto| |].
  - right; left. cbn. auto.
  - right; right. replace (firstn (S (S (S k))) cf) with cf by (unfold cf; cbn [firstn]; now rewrite firstn_nil). cbn. split; [lia|auto].
Qed.

(** ** What a storage holds after a crash *)
Context (good : V -> Prop) (reads : bytes -> option V -> Prop).
Definition holds (st : storage) (o : option V) : Prop :=
  clean (master st) /\ clean (backup st) /\
  exists ob, reads (data (backup st)) ob /\ match ob with Some v => o = Some v | None => reads (data (master st)) o end.

Context (torn : bytes -> bytes -> bytes -> Prop) (FO : format_ok enc rd good reads torn).

Lemma lf_reads c o : reads c o -> load_from_file rd c = Ok o.
Proof. intros H. apply lf_contents. now apply (fo_reads _ _ _ _ _ FO). Qed.
Lemma reads_good c v : reads c (Some v) -> good v.
Proof. apply (fo_good _ _ _ _ _ FO). Qed.
Lemma stored_holds st o : stored reads st o -> holds st o.
Proof.
  intros (H1 & H2 & H3 & H4). split; [auto|]. split; [auto|]. exists None. rewrite H3. split; [apply (fo_empty _ _ _ _ _ FO)|exact H4].
Qed.
Lemma crash_clean (f f' : file) : file_crash torn f f' -> clean f'.
Proof. intros (c & -> & _). split; reflexivity. Qed.
Lemma crash_same (f f' : file) : file_crash torn f f' -> dirty f = false -> data f' = data f.
Proof. intros (c & -> & H) E. rewrite E in H. cbn. auto. Qed.
Lemma crash_torn (f f' : file) : file_crash torn f f' -> dirty f = true -> torn (disk f) (data f) (data f').
Proof. intros (c & -> & H) E. rewrite E in H. cbn. auto. Qed.

Lemma run_prefix w (os : list fop) k st : run st (firstn k (map (pair w) os)) = set_file w st (fops (firstn k os) (on_file w st)).
Proof. rewrite firstn_map. apply run_file. Qed.

Lemma backup_full v : good v -> reads (enc v) (Some v).
Proof. now apply (fo_round _ _ _ _ _ FO). Qed.

(** Crash while the backup is being cleared, the master being durable. *)
Lemma clear_crash st k st1 o : clean (master st) -> clean (backup st) ->
  (exists ob, reads (data (backup st)) ob /\ match ob with Some v => o = Some v /\ reads (data (master st)) o | None => reads (data (master st)) o end) ->
  crash torn (run st (firstn k clear_ops)) st1 -> holds st1 o.
Proof.
  intros [M1 M2] [B1 B2] (ob & Hb & Ho) C. rewrite clear_ops_map, run_prefix in C. destruct C as [Cm Cb]. cbn [set_file on_file master backup] in *.
  split; [eapply crash_clean; eauto|]. split; [eapply crash_clean; eauto|]. pose proof (crash_same _ _ Cm M1) as Em.
  assert (Hm : reads (data (master st)) o) by (destruct ob; tauto).
  destruct (cf_prefix (backup st) k) as [(_ & D & _ & I)|[(_ & D & K & I)|(_ & D & K & I)]].
  - pose proof (crash_same _ _ Cb (eq_trans I B1)) as E. rewrite D in E. exists ob. rewrite E. split; [exact Hb|]. rewrite Em. destruct ob; tauto.
  - pose proof (crash_torn _ _ Cb I) as E. rewrite D, K in E. rewrite B2 in E. destruct (fo_clear _ _ _ _ _ FO _ _ _ Hb E) as [R|R].
    + exists None. split; [exact R|]. now rewrite Em.
    + exists ob. split; [exact R|]. rewrite Em. destruct ob; tauto.
  - pose proof (crash_same _ _ Cb I) as E. rewrite D in E. exists None. rewrite E, Em. split; [apply (fo_empty _ _ _ _ _ FO)|exact Hm].
Qed.

(** Crash while the master is being written, the backup being complete. *)
Lemma master_crash st v k st1 : clean (backup st) -> reads (data (backup st)) (Some v) ->
  crash torn (run st (firstn k (write_ops enc Master v))) st1 -> holds st1 (Some v).
Proof.
  intros [B1 B2] Hb C. rewrite write_ops_map, run_prefix in C. destruct C as [Cm Cb]. cbn [set_file on_file master backup] in *.
  split; [eapply crash_clean; eauto|]. split; [eapply crash_clean; eauto|]. rewrite <- (crash_same _ _ Cb B1) in Hb.
  exists (Some v). auto.
Qed.
Lemma master_written st v : let st1 := run st (write_ops enc Master v) in
  backup st1 = backup st /\ clean (master st1) /\ data (master st1) = enc v.
Proof.
  cbv zeta. rewrite write_ops_map, run_file. cbn [set_file on_file master backup]. destruct (wf_all v (master st)) as (H1 & H2 & H3).
  split; [auto|]. split; [split; congruence|auto].
Qed.
Lemma cleared st : let st1 := run st clear_ops in master st1 = master st /\ clean (backup st1) /\ data (backup st1) = [].
Proof. cbv zeta. cbn. split; [auto|]. split; [split; reflexivity|reflexivity]. Qed.

(** ** Load *)
Lemma load_ok st o : holds st o -> exists st1, load enc rd st = Ok (o, st1) /\ stored reads st1 o.
Proof.
  intros (M & B & ob & Hb & Ho). unfold load. rewrite (lf_reads _ _ Hb). cbn [rbind]. destruct ob as [v|].
  - subst o. eexists. split; [reflexivity|]. destruct (master_written st v) as (E1 & E2 & E3).
    destruct (cleared (run st (write_ops enc Master v))) as (E4 & E5 & E6). split; [rewrite E4; auto|]. split; [auto|]. split; [auto|]. rewrite E4, E3. apply backup_full. eapply reads_good; eauto.
  - destruct (cleared st) as (E4 & E5 & E6). rewrite E4, (lf_reads _ _ Ho). cbn [rbind]. eexists. split; [reflexivity|].
    split; [now rewrite E4|]. split; [auto|]. split; [auto|]. rewrite E4. exact Ho.
Qed.
Lemma firstn_cases {A} k (a b : list A) : (exists j, firstn k (a ++ b) = firstn j a) \/ (exists j, firstn k (a ++ b) = a ++ firstn j b).
Proof.
  destruct (le_lt_dec k (length a)) as [H|H].
  - left. exists k. rewrite firstn_app. replace (k - length a) with 0 by lia. cbn. apply app_nil_r.
  - right. exists (k - length a). rewrite firstn_app. rewrite firstn_all2 by lia. reflexivity.
Qed.
Lemma load_crash st o k st1 : holds st o -> crash torn (run st (firstn k (load_ops enc rd st))) st1 -> holds st1 o.
Proof.
  intros (M & B & ob & Hb & Ho). unfold load_ops. rewrite (lf_reads _ _ Hb). destruct ob as [v|]; intros C.
  - subst o. destruct (firstn_cases k (write_ops enc Master v) clear_ops) as [(j & E)|(j & E)]; rewrite E in C.
    + eapply master_crash; eauto.
    + rewrite run_app in C. destruct (master_written st v) as (E1 & E2 & E3). eapply clear_crash; [exact E2|now rewrite E1| |exact C].
      exists (Some v). rewrite E1. split; [exact Hb|]. split; [auto|]. rewrite E3. apply backup_full. eapply reads_good; eauto.
  - eapply clear_crash; eauto.
Qed.

(** ** Save *)
Lemma backup_crash st o v k st1 : good v -> stored reads st o -> crash torn (run st (firstn k (write_ops enc Backup v))) st1 ->
  holds st1 o \/ holds st1 (Some v).
Proof.
  intros Hg ([M1 M2] & [B1 B2] & E & Hm) C. rewrite write_ops_map, run_prefix in C. destruct C as [Cm Cb]. cbn [set_file on_file master backup] in *.
  pose proof (crash_clean _ _ Cm) as K1. pose proof (crash_clean _ _ Cb) as K2. pose proof (crash_same _ _ Cm M1) as Em.
  assert (Stay : reads (data (backup st1)) None -> holds st1 o).
  { intros R. split; [auto|]. split; [auto|]. exists None. split; [exact R|now rewrite Em]. }
  assert (New : reads (data (backup st1)) (Some v) -> holds st1 (Some v)).
  { intros R. split; [auto|]. split; [auto|]. exists (Some v). split; [exact R|auto]. }
  destruct (wf_prefix v (backup st) k) as [(_ & D & _ & I)|[(_ & _ & K & [I|[Ev I]] & D)|(_ & D & K & I)]].
  - left. apply Stay. rewrite (crash_same _ _ Cb (eq_trans I B1)), D, E. apply (fo_empty _ _ _ _ _ FO).
  - pose proof (crash_torn _ _ Cb I) as T. destruct (D E) as (j & Dj). rewrite Dj, K, B2, E in T.
    destruct (fo_backup _ _ _ _ _ FO _ _ _ Hg T); [left; auto|right; auto].
  - right. apply New. destruct (D E) as (j & Dj). rewrite (crash_same _ _ Cb (eq_trans I B1)), Dj. rewrite Ev, firstn_nil. rewrite <- Ev. now apply (fo_round _ _ _ _ _ FO).
  - right. apply New. rewrite (crash_same _ _ Cb I), D. now apply (fo_round _ _ _ _ _ FO).
Qed.
Lemma backup_written st v : let st1 := run st (write_ops enc Backup v) in
  master st1 = master st /\ clean (backup st1) /\ data (backup st1) = enc v.
Proof.
  cbv zeta. rewrite write_ops_map, run_file. cbn [set_file on_file master backup]. destruct (wf_all v (backup st)) as (H1 & H2 & H3).
  split; [auto|]. split; [split; congruence|auto].
Qed.
Lemma save_crash st o v k st1 : good v -> stored reads st o -> crash torn (run st (firstn k (save_ops enc v))) st1 ->
  holds st1 o \/ holds st1 (Some v).
Proof.
  intros Hg H C. unfold save_ops in C. destruct (firstn_cases k (write_ops enc Backup v) (write_ops enc Master v ++ clear_ops)) as [(j & E)|(j & E)]; rewrite E in C.
  - eapply backup_crash; eauto.
  - right. rewrite run_app in C. destruct (backup_written st v) as (E1 & E2 & E3). set (s1 := run st (write_ops enc Backup v)) in *.
    assert (Hb : reads (data (backup s1)) (Some v)) by (rewrite E3; now apply backup_full).
    destruct (firstn_cases j (write_ops enc Master v) clear_ops) as [(i & Ei)|(i & Ei)]; rewrite Ei in C.
    + eapply master_crash; eauto.
    + rewrite run_app in C. destruct (master_written s1 v) as (F1 & F2 & F3). eapply clear_crash; [exact F2|now rewrite F1| |exact C].
      exists (Some v). rewrite F1. split; [exact Hb|]. split; [auto|]. rewrite F3. now apply backup_full.
Qed.
Lemma save_ok st v : good v -> stored reads (save enc v st) (Some v).
Proof.
  intros Hg. unfold save, save_ops. rewrite !run_app. set (s1 := run st (write_ops enc Backup v)).
  destruct (master_written s1 v) as (F1 & F2 & F3). destruct (cleared (run s1 (write_ops enc Master v))) as (G1 & G2 & G3).
  split; [now rewrite G1|]. split; [auto|]. split; [auto|]. rewrite G1, F3. now apply backup_full.
Qed.

(** An error in Save that the process survives. *)
Lemma failed_load st o v k : good v -> stored reads st o ->
  exists r st1, load enc rd (run st (firstn k (save_ops enc v))) = Ok (r, st1) /\ stored reads st1 r /\ (r = o \/ r = Some v).
Proof.
  intros Hg ([M1 M2] & [B1 B2] & E & Hm).
  assert (Old : forall st1, master st1 = master st -> reads (data (backup st1)) None -> exists s2, load enc rd st1 = Ok (o, s2) /\ stored reads s2 o).
  { intros st1 Em R. unfold load. rewrite (lf_reads _ _ R). cbn [rbind]. destruct (cleared st1) as (E4 & E5 & E6).
    rewrite E4, Em, (lf_reads _ _ Hm). cbn [rbind]. eexists. split; [reflexivity|]. split; [rewrite E4, Em; now split|]. split; [auto|]. split; [auto|]. rewrite E4, Em. exact Hm. }
  assert (New : forall st1, reads (data (backup st1)) (Some v) -> exists s2, load enc rd st1 = Ok (Some v, s2) /\ stored reads s2 (Some v)).
  { intros st1 R. unfold load. rewrite (lf_reads _ _ R). cbn [rbind]. eexists. split; [reflexivity|]. destruct (master_written st1 v) as (E1 & E2 & E3).
    destruct (cleared (run st1 (write_ops enc Master v))) as (E4 & E5 & E6). split; [rewrite E4; auto|]. split; [auto|]. split; [auto|]. rewrite E4, E3. now apply backup_full. }
  assert (Mst : forall st1, clean (master st1) -> reads (data (master st1)) (Some v) -> reads (data (backup st1)) None -> exists s2, load enc rd st1 = Ok (Some v, s2) /\ stored reads s2 (Some v)).
  { intros st1 Cm R1 R. unfold load. rewrite (lf_reads _ _ R). cbn [rbind]. destruct (cleared st1) as (E4 & E5 & E6).
    rewrite E4, (lf_reads _ _ R1). cbn [rbind]. eexists. split; [reflexivity|]. split; [rewrite E4; auto|]. split; [auto|]. split; [auto|]. rewrite E4. exact R1. }
  assert (Fin : forall st1, (exists s2, load enc rd st1 = Ok (o, s2) /\ stored reads s2 o) \/ (exists s2, load enc rd st1 = Ok (Some v, s2) /\ stored reads s2 (Some v)) ->
    exists r s2, load enc rd st1 = Ok (r, s2) /\ stored reads s2 r /\ (r = o \/ r = Some v)).
  { intros st1 [(s2 & K1 & K2)|(s2 & K1 & K2)]; eexists _, s2; eauto. }
  apply Fin. unfold save_ops. destruct (firstn_cases k (write_ops enc Backup v) (write_ops enc Master v ++ clear_ops)) as [(j & Ej)|(j & Ej)]; rewrite Ej; clear Ej.
  - rewrite write_ops_map, run_prefix. cbn [set_file on_file].
    destruct (wf_prefix v (backup st) j) as [(_ & D & _ & _)|[(_ & _ & _ & _ & D)|(_ & D & _ & _)]].
    + left. apply Old; [reflexivity|]. cbn [backup]. rewrite D, E. apply (fo_empty _ _ _ _ _ FO).
    + destruct (D E) as (i & Di). destruct (fo_backup _ _ _ _ _ FO v i (firstn i (enc v)) Hg) as [R|R]; [apply (fo_current _ _ _ _ _ FO)| |].
      * left. apply Old; [reflexivity|]. cbn [backup]. now rewrite Di.
      * right. apply New. cbn [backup]. now rewrite Di.
    + right. apply New. cbn [backup]. rewrite D. now apply (fo_round _ _ _ _ _ FO).
  - rewrite run_app. destruct (backup_written st v) as (E1 & E2 & E3). set (s1 := run st (write_ops enc Backup v)) in *. right.
    destruct (firstn_cases j (write_ops enc Master v) clear_ops) as [(i & Ei)|(i & Ei)]; rewrite Ei; clear Ei.
    + apply New. rewrite write_ops_map, run_prefix. cbn [set_file on_file backup]. rewrite E3. now apply (fo_round _ _ _ _ _ FO).
    + rewrite run_app. destruct (master_written s1 v) as (F1 & F2 & F3). set (s2 := run s1 (write_ops enc Master v)) in *.
      rewrite clear_ops_map, run_prefix. cbn [set_file on_file].
      destruct (cf_prefix (backup s2) i) as [(_ & D & _ & _)|[(_ & D & _ & _)|(_ & D & _ & _)]].
      * apply New. cbn [backup]. rewrite D, F1, E3. now apply (fo_round _ _ _ _ _ FO).
      * apply Mst; cbn [master backup]; [auto|rewrite F3; now apply backup_full|rewrite D; apply (fo_empty _ _ _ _ _ FO)].
      * apply Mst; cbn [master backup]; [auto|rewrite F3; now apply backup_full|rewrite D; apply (fo_empty _ _ _ _ _ FO)].
Qed.

Theorem exec_allowed st b tr st' b' : exec enc rd good torn st b tr st' b' -> forall o, (if b then stored reads st o else holds st o) ->
  exists o', allowed o tr o' /\ (if b' then stored reads st' o' else holds st' o').
Proof.
  induction 1; intros o HS.
  - exists o. split; [constructor|auto].
  - destruct (IHexec (Some v) (save_ok st v H)) as (o' & A & R). exists o'. split; [now constructor|auto].
  - destruct (save_crash _ _ _ _ _ H HS H0) as [K|K]; destruct (IHexec _ K) as (o' & A & R); exists o'; (split; [|auto]); [now apply a_undone|now apply a_done].
  - destruct (failed_load st o v k H HS) as (r' & s2 & E & S2 & K). rewrite E in H0. injection H0 as <- <-.
    destruct (IHexec r' S2) as (o' & A & R). exists o'. split; [|auto]. destruct K as [->| ->]; [apply a_undone|apply a_done]; now constructor.
  - destruct (IHexec (Some v') (save_ok _ v' H0)) as (o' & A & R). exists o'. split; [|auto]. apply a_undone. now constructor.
  - assert (K : holds st o) by (destruct b0; [now apply stored_holds|auto]). destruct (load_ok st o K) as (st2 & E & S2). rewrite E in H. injection H as <- <-.
    destruct (IHexec o S2) as (o' & A & R). exists o'. split; [now constructor|auto].
  - assert (K : holds st o) by (destruct b0; [now apply stored_holds|auto]). pose proof (load_crash _ _ _ _ K H) as K1.
    destruct (IHexec o K1) as (o' & A & R). exists o'. split; [now constructor|auto].
Qed.
End Proofs.
