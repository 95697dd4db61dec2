(** Property C100: Save with a mutex while other threads modify the object. *)
From Coq Require Import ZifyBool ZifyNat.
From Verif Require Import Common AStoreModel AStoreSpec AStoreProofs AStoreProps ASConcModel ASConcSpec.

Definition cs (p : pc) : bool := match p with MBody _ | SSnap _ => true | _ => false end.
Definition saving (p : pc) : bool := match p with SLock | SSnap _ | SFile _ _ => true | _ => false end.
Definition modifies (p : pc) : bool := match p with MBody _ => true | _ => false end.

Ltac proj := cbn [mtx obj files pcs savers log go set_mtx set_obj set_files set_savers note remove_saver] in *.
Ltac xcase x t := destruct (Nat.eq_dec x t) as [->|]; [rewrite ?upd_eq|rewrite ?upd_neq by easy].
(** All the cases of a step. *)
Ltac split_step H :=
  unfold step1, acquire in H;
  let P := fresh "P" in
  match type of H with match pcs ?s ?t with _ => _ end = _ => destruct (pcs s t) as [|ws|[|[wi wx] ws]| |got|v [|o todo]] eqn:P end;
  match type of H with context [match ?a with AMutate _ => _ | _ => _ end] => destruct a; try discriminate H end;
  repeat match type of H with
  | None = Some _ => discriminate H
  | (if ?b then _ else _) = _ => let B := fresh "B" in destruct b eqn:B
  | match mtx ?s with _ => _ end = _ => let M := fresh "M" in destruct (mtx s) eqn:M
  end; try discriminate H; injection H as <-; proj.

Section Conc.
Context (n : nat) (enc : list Z -> bytes) (serial : bool) (v0 : list Z).
Notation step1 := (step1 n enc serial).
Notation value := (value n).
Notation current := (current v0).
Notation seen := (seen v0).
Notation lawful := (lawful v0).
Notation last_saved := (last_saved v0).

(** The value now is one of those that have been seen. *)
Lemma seen_current t l : forall vs, seen t l = Some vs -> In (current l) vs.
Proof.
  induction l as [|e l IH]; intros vs; cbn; [discriminate|].
  destruct e as [u|u v|u|v]; try (destruct (u =? t); [|now apply IH]); try discriminate.
  - intros [= <-]. now left.
  - destruct (seen t l); [|discriminate]. intros [= <-]. now left.
Qed.

Record inv (s : state) : Prop := {
  i_mtx : forall x, cs (pcs s x) = true <-> mtx s = Some x;
  i_snap : forall x got, pcs s x = SSnap got -> got = map (obj s) (seq 0 (length got)) /\ length got <= n;
  i_cur : (forall x, modifies (pcs s x) = false) -> current (log s) = value s;
  i_seen : forall x, saving (pcs s x) = true <-> seen x (log s) <> None;
  i_file : forall x v todo, pcs s x = SFile v todo -> length v = n /\ exists vs, seen x (log s) = Some vs /\ In v vs;
  i_savers : forall x, In x (savers s) <-> saving (pcs s x) = true;
  i_nodup : NoDup (savers s);
  i_lawful : lawful (log s) }.

Section Step.
Context (s s' : state) (t : nat) (a : act) (H : step1 s t a = Some s').

Lemma s_mtx : (forall x, cs (pcs s x) = true <-> mtx s = Some x) -> forall x, cs (pcs s' x) = true <-> mtx s' = Some x.
Proof.
  intros M x. pose proof (M t) as Mt. pose proof (M x) as Mx. clear M.
  split_step H; try (rewrite P in Mt); cbn [cs] in Mt; xcase x t; cbn [cs]; try (rewrite M in *); intuition congruence.
Qed.

Lemma owner x : inv s -> cs (pcs s t) = true -> cs (pcs s x) = true -> x = t.
Proof. intros I H1 H2. apply (i_mtx _ I) in H1, H2. congruence. Qed.

Lemma s_snap : inv s -> forall x got, pcs s' x = SSnap got -> got = map (obj s') (seq 0 (length got)) /\ length got <= n.
Proof.
  intros I x g. pose proof (i_snap _ I t) as St. pose proof (i_snap _ I x) as Sx. pose proof (fun h => owner x I h) as O.
  split_step H; xcase x t; try discriminate; try (now apply Sx).
  - intros E. exfalso. try rewrite P in O. rewrite E in O. specialize (O eq_refl eq_refl). easy.
  - intros [= <-]. cbn. split; [reflexivity|lia].
  - intros [= <-]. destruct (St got eq_refl) as [E L]. rewrite app_length. cbn [length]. split; [|lia].
    rewrite Nat.add_comm. cbn [plus]. rewrite seq_S, map_app. cbn. now rewrite <- E.
Qed.

Lemma value_go x p : value (go s x p) = value s.
Proof. reflexivity. Qed.

Lemma s_cur : inv s -> (forall x, modifies (pcs s' x) = false) -> current (log s') = value s'.
Proof.
  intros I N. pose proof (i_cur _ I) as C. pose proof (N t) as Nt.
  assert (Q : modifies (pcs s t) = false -> forall x, modifies (pcs s x) = false).
  { intros Mt x. specialize (N x). clear - N Mt H. split_step H; revert N; xcase x t; auto. all: now rewrite P in *. }
  split_step H; try (rewrite P in Q); try (rewrite upd_eq in Nt; cbn in Nt); try discriminate; cbn [ASConcSpec.current]; try (rewrite (C (Q eq_refl)); reflexivity); reflexivity.
Qed.

Lemma s_seen : inv s -> forall x, saving (pcs s' x) = true <-> seen x (log s') <> None.
Proof.
  intros I x. pose proof (i_seen _ I x) as Sx. pose proof (i_seen _ I t) as St.
  split_step H; try (rewrite P in St); cbn [saving] in St; xcase x t; cbn [saving ASConcSpec.seen];
    rewrite ?Nat.eqb_refl; try (replace (t =? x) with false by (symmetry; apply Nat.eqb_neq; auto)); auto; try intuition congruence.
  - destruct (seen t (log s)); cbn; intuition congruence.
  - destruct (seen x (log s)); cbn; intuition congruence.
Qed.

Lemma s_file : inv s -> forall x v todo, pcs s' x = SFile v todo -> length v = n /\ exists vs, seen x (log s') = Some vs /\ In v vs.
Proof.
  intros I x w td. pose proof (i_file _ I x) as Fx. pose proof (i_file _ I t) as Ft.
  split_step H; xcase x t; try discriminate; cbn [ASConcSpec.seen]; try (replace (t =? x) with false by (symmetry; apply Nat.eqb_neq; auto)); try (now apply Fx).
  - intros E. destruct (Fx _ _ E) as (L & vs & E1 & E2). rewrite E1. cbn. split; auto. eexists. split; [reflexivity|]. now right.
  - intros [= <- <-]. split; [now apply Nat.eqb_eq|].
    destruct (i_snap _ I _ _ P) as [Eg _]. apply Nat.eqb_eq in B. rewrite B in Eg.
    assert (S1 : seen t (log s) <> None) by (apply (i_seen _ I); now rewrite P).
    destruct (seen t (log s)) as [vs|] eqn:Es; [|congruence]. exists vs. split; auto.
    apply seen_current in Es. rewrite (i_cur _ I) in Es; [unfold ASConcModel.value in Es; congruence|].
    intros x. destruct (modifies (pcs s x)) eqn:E; auto. assert (x = t); [|subst; now rewrite P in E].
    apply owner; auto; [now rewrite P|]. destruct (pcs s x); cbn in *; congruence.
  - intros [= <- <-]. eauto.
Qed.

Lemma s_savers : inv s -> NoDup (savers s') /\ forall x, In x (savers s') <-> saving (pcs s' x) = true.
Proof.
  intros I. pose proof (i_savers _ I) as S. pose proof (i_nodup _ I) as N. pose proof (S t) as St.
  assert (R : forall l, NoDup l -> NoDup (filter (fun u => negb (u =? t)) l)) by (intros; now apply NoDup_filter).
  split_step H; try (rewrite P in St); cbn [saving] in St; (split; [auto; constructor; intuition congruence|]); intros x; pose proof (S x) as Sx;
    rewrite ?filter_In, ?negb_true_iff, ?Nat.eqb_neq; xcase x t; cbn [saving In]; intuition congruence.
Qed.

Lemma s_lawful : inv s -> lawful (log s').
Proof.
  intros I. pose proof (i_lawful _ I) as L. pose proof (i_seen _ I t) as St. pose proof (i_file _ I t) as Ft.
  split_step H; auto; cbn [ASConcSpec.lawful]; split; auto; try (rewrite P in St); cbn [saving] in St; try (intuition congruence).
  - destruct (seen t (log s)); auto. assert (false = true) by (apply St; congruence). discriminate.
  - destruct (Ft _ _ eq_refl) as (_ & vs & ? & ?). eauto.
Qed.

Lemma s_inv : inv s -> inv s'.
Proof.
  intros I. constructor.
  - apply s_mtx, I.
  - now apply s_snap.
  - now apply s_cur.
  - now apply s_seen.
  - now apply s_file.
  - now apply s_savers.
  - now apply s_savers.
  - now apply s_lawful.
Qed.
End Step.

Lemma inv_start o f : map o (seq 0 n) = v0 -> inv (start o f).
Proof.
  intros E. constructor; unfold start; proj; cbn; try easy; intros; try easy. constructor.
Qed.
Lemma inv_run l : forall s s', inv s -> run1 n enc serial s l = Some s' -> inv s'.
Proof.
  induction l as [|[t a] l IH]; intros s s' I; cbn [run1]; [now intros [= <-]|].
  destruct (step1 s t a) as [s1|] eqn:E; [|discriminate]. apply IH. eapply s_inv; eauto.
Qed.
End Conc.

(** ** The files, when there is one Save at a time *)
Section Files.
Context (n : nat) (enc : list Z -> bytes) (rd : bytes -> res (list Z * nat)) (good : list Z -> Prop)
  (reads : bytes -> option (list Z) -> Prop) (torn : bytes -> bytes -> bytes -> Prop) (v0 : list Z).
Context (FO : format_ok enc rd good reads torn) (G : forall v, length v = n -> good v).
Notation last_saved := (last_saved v0).

Definition writing (p : pc) : bool := match p with SFile _ _ => true | _ => false end.
Record finv (s : state) : Prop := {
  f_one : forall x y, saving (pcs s x) = true -> saving (pcs s y) = true -> x = y;
  f_rest : (forall x, writing (pcs s x) = false) -> stored reads (files s) (Some (last_saved (log s)));
  f_file : forall x v todo, pcs s x = SFile v todo -> exists st0 k,
      stored reads st0 (Some (last_saved (log s))) /\ files s = run st0 (firstn k (save_ops enc v)) /\ todo = skipn k (save_ops enc v) }.

Lemma skipn_cons {A} k : forall (l : list A) x r, skipn k l = x :: r -> firstn (S k) l = firstn k l ++ [x] /\ skipn (S k) l = r.
Proof.
  induction k as [|k IH]; intros [|y l] x r; cbn [skipn]; try discriminate.
  - intros [= -> ->]. split; reflexivity.
  - intros E. destruct (IH _ _ _ E) as [E1 E2]. split; auto. cbn [firstn app]. f_equal. exact E1.
Qed.

Section FStep.
Context (s s' : state) (t : nat) (a : act) (H : step1 n enc true s t a = Some s').

Lemma fs_one : inv n v0 s -> finv s -> forall x y, saving (pcs s' x) = true -> saving (pcs s' y) = true -> x = y.
Proof.
  intros I F x y. pose proof (f_one _ F x y) as O1. pose proof (f_one _ F x t) as O2. pose proof (f_one _ F t y) as O3.
  pose proof (i_savers _ _ _ I x) as Ix. pose proof (i_savers _ _ _ I y) as Iy.
  split_step H; xcase x t; xcase y t; auto; cbn [saving] in *; try discriminate.
  all: destruct (savers s); [cbn in *; intuition|discriminate].
Qed.

Lemma fs_rest : inv n v0 s -> finv s -> (forall x, writing (pcs s' x) = false) -> stored reads (files s') (Some (last_saved (log s'))).
Proof.
  intros I F N. pose proof (N t) as Nt. pose proof (f_rest _ F) as R. pose proof (f_file _ F t) as Ft.
  pose proof (i_file _ _ _ I t) as It.
  assert (Q : writing (pcs s t) = false -> forall x, writing (pcs s x) = false).
  { intros Mt x. specialize (N x). clear - N Mt H. split_step H; revert N; xcase x t; auto. all: now rewrite P in *. }
  split_step H; try (rewrite P in Q); try (rewrite upd_eq in Nt; cbn in Nt); try discriminate; cbn [ASConcSpec.last_saved]; try (apply R, Q; reflexivity).
  destruct (Ft _ _ eq_refl) as (st0 & k & S0 & E1 & E2). rewrite firstn_all2 in E1 by (apply (f_equal (@length _)) in E2; rewrite skipn_length in E2; cbn [length] in E2; lia).
  rewrite E1. apply (save_ok enc rd good reads torn FO). apply G. now apply (It _ _ eq_refl).
Qed.

Lemma fs_file : inv n v0 s -> finv s -> forall x v todo, pcs s' x = SFile v todo -> exists st0 k,
      stored reads st0 (Some (last_saved (log s'))) /\ files s' = run st0 (firstn k (save_ops enc v)) /\ todo = skipn k (save_ops enc v).
Proof.
  intros I F x w td. pose proof (f_file _ F x) as Fx. pose proof (f_file _ F t) as Ft. pose proof (f_one _ F x t) as O.
  pose proof (f_rest _ F) as R. pose proof (f_one _ F) as O1.
  split_step H; xcase x t; try discriminate; cbn [ASConcSpec.last_saved]; try (now apply Fx);
    try (intros E; exfalso; rewrite E in O; cbn [saving] in O; try rewrite P in O; specialize (O eq_refl eq_refl); easy).
  - intros [= <- <-]. exists (files s), 0. split; [apply R|split; reflexivity].
    intros x. destruct (writing (pcs s x)) eqn:E; auto.
    assert (x = t); [apply O1; [destruct (pcs s x); cbn in *; congruence|now rewrite P]|subst; now rewrite P in E].
  - intros [= <- <-]. destruct (Ft _ _ eq_refl) as (st0 & k & S0 & E1 & E2). exists st0, (S k). symmetry in E2. apply skipn_cons in E2 as [E2 E3].
    repeat split; auto; try apply S0. rewrite E2, run_app, <- E1. reflexivity.
Qed.
Lemma fs_inv : inv n v0 s -> finv s -> finv s'.
Proof. intros I F. constructor; [now apply fs_one|now apply fs_rest|now apply fs_file]. Qed.
End FStep.

Lemma finv_run l : forall s s', inv n v0 s -> finv s -> run1 n enc true s l = Some s' -> finv s'.
Proof.
  induction l as [|[t a] l IH]; intros s s' I F; cbn [run1]; [now intros [= <-]|].
  destruct (step1 n enc true s t a) as [s1|] eqn:E; [|discriminate]. apply IH; [eapply s_inv; eauto|eapply fs_inv; eauto].
Qed.
Lemma finv_start o f : stored reads f (Some v0) -> finv (start o f).
Proof. intros S. constructor; unfold start; proj; cbn; try easy. Qed.
End Files.

(** ** C100 *)
Section Theorems.
Context (n : nat) (enc : list Z -> bytes) (rd : bytes -> res (list Z * nat)).

(** In every interleaving, also when Saves run at the same time: what a Save saves is a
    value that the object has had between two modifications, during the call; never half
    of a modification. *)
Theorem save_mutex_consistent serial o f l s :
  run1 n enc serial (start o f) l = Some s -> lawful (map o (seq 0 n)) (log s).
Proof. intros R. eapply i_lawful, inv_run; [|exact R]. now apply inv_start. Qed.

(** No data race: a field is never written while another thread reads or writes fields. *)
Theorem save_mutex_no_race serial o f l s x y :
  run1 n enc serial (start o f) l = Some s -> cs (pcs s x) = true -> cs (pcs s y) = true -> x = y.
Proof.
  intros R Hx Hy. assert (I : inv n (map o (seq 0 n)) s) by (eapply inv_run; [|exact R]; now apply inv_start).
  apply (i_mtx _ _ _ I) in Hx, Hy. congruence.
Qed.

(** No thread waits for the disk: who waits for the mutex waits for a thread that is in
    its critical section, which can go on; everybody else can go on. *)
Theorem save_mutex_progress serial o f l s t :
  run1 n enc serial (start o f) l = Some s -> pcs s t <> Idle ->
  (exists s', step1 n enc serial s t AStep = Some s') \/
  (exists u, u <> t /\ cs (pcs s u) = true /\ exists s', step1 n enc serial s u AStep = Some s').
Proof.
  intros R Hp. assert (I : inv n (map o (seq 0 n)) s) by (eapply inv_run; [|exact R]; now apply inv_start).
  assert (C : forall u, cs (pcs s u) = true -> exists s', step1 n enc serial s u AStep = Some s').
  { intros u. unfold step1. destruct (pcs s u) as [|ws|[|[wi wx] ws]| |got|v [|o0 todo]]; cbn; try discriminate; eauto. destruct (_ =? _); eauto. }
  assert (W : forall p, cs (pcs s t) = false -> (exists s', acquire s t p = Some s') \/
    exists u, u <> t /\ cs (pcs s u) = true /\ exists s', step1 n enc serial s u AStep = Some s').
  { intros p Hc. unfold acquire. destruct (mtx s) as [u|] eqn:E; [right|eauto]. apply (i_mtx _ _ _ I) in E.
    exists u. split; [congruence|]. auto. }
  destruct (cs (pcs s t)) eqn:E; [left; auto|]. unfold step1 at 1.
  destruct (pcs s t) as [|ws|[|[wi wx] ws]| |got|v [|o0 todo]]; cbn in E; try discriminate; try (left; eauto; fail); auto. congruence.
Qed.

Context (good : list Z -> Prop) (reads : bytes -> option (list Z) -> Prop) (torn : bytes -> bytes -> bytes -> Prop).

(** One Save at a time: after a crash at any moment Load gives the value of the last Save
    that returned, or a value that the object has had since the call that was in progress. *)
Theorem save_mutex_crash o f l s st' :
  format_ok enc rd good reads torn -> (forall v, length v = n -> good v) ->
  let v0 := map o (seq 0 n) in
  stored reads f (Some v0) -> run1 n enc true (start o f) l = Some s -> crash torn (files s) st' ->
  exists r st'', load enc rd st' = Ok (Some r, st'') /\
    (r = last_saved v0 (log s) \/ exists t vs, seen v0 t (log s) = Some vs /\ In r vs).
Proof.
  intros FO G v0 S0 R C.
  assert (I : inv n v0 s) by (eapply inv_run; [|exact R]; now apply inv_start).
  assert (F : finv enc reads v0 s) by (eapply finv_run; [exact FO|exact G| | |exact R]; [now apply inv_start|now apply finv_start]).
  assert (D : (forall x, writing (pcs s x) = false) \/ exists x v todo, pcs s x = SFile v todo).
  { destruct (savers s) as [|x r] eqn:E.
    - left. intros x. destruct (writing (pcs s x)) eqn:W; auto. exfalso.
      assert (Hi : In x (savers s)) by (apply (i_savers _ _ _ I); destruct (pcs s x); cbn in *; congruence). now rewrite E in Hi.
    - assert (Hx : saving (pcs s x) = true) by (apply (i_savers _ _ _ I); rewrite E; now left).
      destruct (writing (pcs s x)) eqn:W; [right; destruct (pcs s x) eqn:Ex; try discriminate; eauto|left].
      intros y. destruct (writing (pcs s y)) eqn:Wy; auto. assert (y = x); [|congruence].
      apply (f_one _ _ _ _ F); auto. destruct (pcs s y); cbn in *; congruence. }
  destruct D as [D|(x & v & todo & E)].
  - pose proof (f_rest _ _ _ _ F D) as Sr.
    destruct (atomic_storage_save_crash enc rd good reads torn (files s) (last_saved v0 (log s)) (last_saved v0 (log s)) 0 st') as (r & st'' & L & Hr & _); auto.
    { destruct Sr as (_ & _ & _ & Sr). eapply fo_good; eauto. }
    exists r, st''. split; auto. tauto.
  - destruct (f_file _ _ _ _ F _ _ _ E) as (st0 & k & Sr & Ef & _). destruct (i_file _ _ _ I _ _ _ E) as (Lv & vs & Es & Hi).
    destruct (atomic_storage_save_crash enc rd good reads torn st0 (last_saved v0 (log s)) v k st') as (r & st'' & L & Hr & _); auto; [now rewrite <- Ef|].
    exists r, st''. split; auto. destruct Hr as [->| ->]; eauto.
Qed.

(** When no call is in progress, Load gives the value of the last Save that returned. *)
Theorem save_mutex_load o f l s :
  format_ok enc rd good reads torn -> (forall v, length v = n -> good v) ->
  let v0 := map o (seq 0 n) in
  stored reads f (Some v0) -> run1 n enc true (start o f) l = Some s -> (forall t, seen v0 t (log s) = None) ->
  exists st', load enc rd (files s) = Ok (Some (last_saved v0 (log s)), st') /\ stored reads st' (Some (last_saved v0 (log s))).
Proof.
  intros FO G v0 S0 R N.
  assert (I : inv n v0 s) by (eapply inv_run; [|exact R]; now apply inv_start).
  assert (F : finv enc reads v0 s) by (eapply finv_run; [exact FO|exact G| | |exact R]; [now apply inv_start|now apply finv_start]).
  apply (load_ok enc rd good reads torn FO). eapply stored_holds; eauto. apply (f_rest _ _ _ _ F).
  intros x. destruct (writing (pcs s x)) eqn:W; auto. exfalso.
  assert (seen v0 x (log s) <> None); [|now rewrite N in *]. apply (i_seen _ _ _ I). destruct (pcs s x); cbn in *; congruence.
Qed.
End Theorems.
Print Assumptions save_mutex_consistent. Print Assumptions save_mutex_crash.

Definition steps (t k : nat) : list (nat * act) := repeat (t, AStep) k.
Definition ex_obj (i : nat) : Z := match i with 0 => 5 | _ => 7 end.
Definition ex_files : storage := {| master := fresh_file (toy_enc [5; 7]%Z); backup := fresh_file [] |}.
Definition ex_start : state := start ex_obj ex_files.
Lemma ex_stored : stored (any_file toy_rd any) ex_files (Some (map ex_obj (seq 0 2))).
Proof. repeat split. Qed.

(** The mutex is not held while the files are written, so two calls of Save with the same
    mutex write to the same files at the same time.  Both return, nothing has failed, and
    the file contains the two values one after the other: Load returns false, everything
    that was saved is lost. *)
Theorem save_mutex_concurrent_refuted :
  exists (l : list (nat * act)) s st',
    run1 2 toy_enc false ex_start l = Some s /\ (forall t, seen [5; 7]%Z t (log s) = None) /\
    (exists t v l', log s = ERet t v :: l') /\ load toy_enc toy_rd (files s) = Ok (None, st').
Proof.
  (* both take the snapshot and write the backup; both seek in the master, then both write *)
  exists ([(0, ASave)] ++ steps 0 10 ++ [(1, ASave)] ++ steps 1 10 ++ steps 0 1 ++ steps 1 1 ++ steps 0 3 ++ steps 1 3 ++ steps 0 6 ++ steps 1 6).
  eexists _, _. split; [vm_compute; reflexivity|]. split; [|split; [vm_compute; eauto|vm_compute; reflexivity]].
  intros [|[|t]]; reflexivity.
Qed.

(** A modification of both fields, and Saves: the snapshot of the first waits for the
    mutex and sees both changes; while the backup is being written the master has the
    old value, after the return the new one. *)
Example ex_conc :
  let l := [(0, ASave); (1, AMutate [(0, 8%Z); (1, 9%Z)])] ++ steps 1 2 in
  (run1 2 toy_enc true ex_start (l ++ steps 0 1) = None) /\
  match run1 2 toy_enc true ex_start (l ++ steps 1 2 ++ steps 0 8) with
  | Some s => data (backup (files s)) = [2; 8; 9]%Z /\ data (master (files s)) = [2; 5; 7]%Z /\
              seen [5; 7]%Z 0 (log s) = Some [[8; 9]; [5; 7]]%Z /\ last_saved [5; 7]%Z (log s) = [5; 7]%Z
  | None => False
  end /\
  match run1 2 toy_enc true ex_start (l ++ steps 1 2 ++ steps 0 20) with
  | Some s => log s = [ERet 0 [8; 9]; EPub [8; 9]; ECall 0]%Z /\ data (master (files s)) = [2; 8; 9]%Z /\ data (backup (files s)) = []
  | None => False
  end.
Proof. vm_compute. auto 10. Qed.
(** An exception in MakeShanshot releases the mutex and leaves the files. *)
Example ex_conc_throw :
  match run1 2 toy_enc true ex_start [(0, ASave); (0, AStep); (0, AStep); (0, AFail); (1, AMutate []); (1, AStep)] with
  | Some s => mtx s = Some 1 /\ log s = [EThrew 0; ECall 0] /\ data (master (files s)) = [2; 5; 7]%Z
  | None => False
  end.
Proof. vm_compute. auto. Qed.
