(** Owners of handles and of objects (C65). *)
From Verif Require Import Common HandleModel.

(** ** What is expected *)
(** Each object refers to something or to nothing; None: it does not exist. *)
Definition refs := nat -> option (option kobj).
Definition expected_step (o : hop) (e : refs) : refs :=
  match o with
  | Default i => upd e i (Some None)
  | OpenHandle i _ k => upd e i (Some (Some k))
  | MoveCtor i j => upd (upd e i (e j)) j (Some None)
  | MoveAssign i j => upd (upd e i (e j)) j (Some None)
  | CopyCtor i j _ | CopyAssign i j _ => upd e i (e j)
  | CloseOp i => upd e i (Some None)
  | Destroy i => upd e i None
  end.
Definition expected (os : list hop) : refs := fold_left (fun e o => expected_step o e) os (fun _ => None).
(** Objects are used while they exist, and the system does not give out a handle that is open. *)
Definition exists_ (s : state) (i : nat) : Prop := slot s i <> None.
Definition fresh (s : state) (h : nat) : Prop := lookup h (table s) = None.
Definition proper (o : hop) (s : state) : Prop :=
  match o with
  | Default i => ~ exists_ s i
  | OpenHandle i h _ => ~ exists_ s i /\ fresh s h
  | MoveCtor i j => ~ exists_ s i /\ exists_ s j
  | MoveAssign i j => exists_ s i /\ exists_ s j
  | CopyCtor i j h => ~ exists_ s i /\ exists_ s j /\ fresh s h
  | CopyAssign i j h => exists_ s i /\ exists_ s j /\ fresh s h
  | CloseOp i | Destroy i => exists_ s i
  end.
(** Only objects that refer to something are copied, and not to themselves. *)
Definition plain_copy (o : hop) (e : refs) : Prop :=
  match o with
  | CopyCtor i j _ => e j <> Some None
  | CopyAssign i j _ => e j <> Some None /\ i <> j
  | _ => True
  end.
Fixpoint proper_run (os : list hop) (s : state) : Prop := match os with [] => True | o :: r => proper o s /\ forall s1, hstep o s = Ok s1 -> proper_run r s1 end.
Fixpoint plain_run (os : list hop) (e : refs) : Prop := match os with [] => True | o :: r => plain_copy o e /\ plain_run r (expected_step o e) end.
Definition empty : state := {| table := []; slot := fun _ => None |}.

(** ** The invariant: every open handle is in exactly one object *)
Record owned (s : state) (e : refs) : Prop := {
  o_refs : forall i, e i = match slot s i with None => None | Some None => Some None | Some (Some h) => Some (lookup h (table s)) end;
  o_open : forall i h, slot s i = Some (Some h) -> lookup h (table s) <> None;
  o_one : forall i j h, slot s i = Some (Some h) -> slot s j = Some (Some h) -> i = j;
  o_held : forall h, lookup h (table s) <> None -> exists i, slot s i = Some (Some h);
  o_nodup : NoDup (map fst (table s)) }.
Lemma lookup_in h t : lookup h t <> None <-> In h (map fst t).
Proof. induction t as [|[k o] t IH]; cbn; [tauto|]. destruct (Nat.eqb_spec k h); [split; [auto|discriminate]|]. rewrite IH. tauto. Qed.
Lemma lookup_remove h k t : NoDup (map fst t) -> lookup k (remove h t) = if Nat.eqb k h then None else lookup k t.
Proof.
  induction t as [|[g o] t IH]; cbn [map fst]; intros Hn; [cbn; now destruct (Nat.eqb k h)|]. apply NoDup_cons_iff in Hn. destruct Hn as [Hi Hn]. cbn [remove lookup]. destruct (Nat.eqb_spec g h) as [->|N].
  - destruct (Nat.eqb_spec k h) as [->|N2].
    + destruct (lookup h t) eqn:E; auto. destruct Hi. apply lookup_in. congruence.
    + destruct (Nat.eqb_spec h k); [congruence|auto].
  - cbn [lookup]. rewrite IH by auto. destruct (Nat.eqb_spec g k) as [->|]; auto. destruct (Nat.eqb_spec k h); [congruence|auto].
Qed.
Lemma nodup_remove h t : NoDup (map fst t) -> NoDup (map fst (remove h t)).
Proof.
  intros Hn. assert (G : forall t, NoDup (map fst t) -> NoDup (map fst (remove h t)) /\ forall x, In x (map fst (remove h t)) -> In x (map fst t)).
  { clear. induction t as [|[g o] t IH]; cbn [map fst]; intros Hn; [cbn; auto|]. apply NoDup_cons_iff in Hn. destruct Hn as [Hi Hn]. destruct (IH Hn) as [A B]. cbn [remove]. destruct (Nat.eqb_spec g h); [split; [auto|cbn; auto]|].
    cbn [map fst]. split; [constructor; auto|]. intros x [->|X]; [now left|right; auto]. }
  now apply G.
Qed.
Lemma close_ok i s e : owned s e -> exists_ s i ->
  exists s1, close i s = Ok s1 /\ owned s1 (upd e i (Some None)) /\ (forall j, j <> i -> slot s1 j = slot s j) /\ slot s1 i = Some None /\ (forall h, lookup h (table s1) <> None -> lookup h (table s) <> None) /\
  (forall j h, j <> i -> slot s j = Some (Some h) -> lookup h (table s1) = lookup h (table s)).
Proof.
  intros [R1 R2 R3 R4 R5] Hi. unfold close, value. unfold exists_ in Hi. destruct (slot s i) as [[h|]|] eqn:E; [| |congruence].
  - unfold sys_close. pose proof (R2 i h E) as L. destruct (lookup h (table s)) as [k|] eqn:Ek; [|congruence]. cbn [rbind]. eexists. split; [reflexivity|]. cbn [set_slot table slot].
    assert (Ho : forall j g, j <> i -> slot s j = Some (Some g) -> lookup g (remove h (table s)) = lookup g (table s)).
    { intros j g N Ej. rewrite lookup_remove by auto. destruct (Nat.eqb_spec g h) as [->|]; auto. destruct N. eapply R3; eauto. }
    split; [|split; [intros; now apply upd_neq|split; [apply upd_eq|split; [intros g; rewrite lookup_remove by auto; destruct (Nat.eqb g h); congruence|exact Ho]]]].
    constructor; cbn [set_slot table slot].
    + intros j. unfold upd. destruct (Nat.eqb_spec j i) as [->|N]; auto. rewrite R1. destruct (slot s j) as [[g|]|] eqn:Ej; auto. now rewrite (Ho j g).
    + intros j g. unfold upd. destruct (Nat.eqb_spec j i); [discriminate|]. intros Ej. rewrite (Ho j g) by auto. eauto.
    + intros a b g. unfold upd. destruct (Nat.eqb a i), (Nat.eqb b i); try discriminate. apply R3.
    + intros g. rewrite lookup_remove by auto. destruct (Nat.eqb_spec g h) as [->|N]; [congruence|]. intros Lg. destruct (R4 g Lg) as (j & Ej). exists j. rewrite upd_neq; auto. intros ->. congruence.
    + now apply nodup_remove.
  - exists s. split; [reflexivity|]. split; [|split; [auto|split; [auto|split; auto]]]. constructor; auto. intros j. unfold upd. destruct (Nat.eqb_spec j i) as [->|N]; auto. now rewrite E.
Qed.
Lemma owned_ext s e e' : owned s e -> (forall i, e' i = e i) -> owned s e'.
Proof. intros [R1 R2 R3 R4 R5] H. constructor; auto. intros i. rewrite H. apply R1. Qed.
Lemma null_ok i s e : owned s e -> slot s i = Some None \/ slot s i = None -> forall v, v = None \/ v = Some None -> owned (set_slot s i v) (upd e i (match v with None => None | Some _ => Some None end)).
Proof.
  intros [R1 R2 R3 R4 R5] H v Hv. constructor; cbn [set_slot table slot]; auto.
  - intros j. unfold upd. destruct (Nat.eqb_spec j i); auto. destruct Hv as [->| ->]; auto.
  - intros j h. unfold upd. destruct (Nat.eqb_spec j i); [destruct Hv; congruence|eauto].
  - intros a b h. unfold upd. destruct (Nat.eqb_spec a i), (Nat.eqb_spec b i); try (destruct Hv; congruence). eauto.
  - intros h L. destruct (R4 h L) as (j & Ej). exists j. rewrite upd_neq; auto. intros ->. destruct H; congruence.
Qed.
Lemma move_ok i j s e : owned s e -> i <> j -> slot s i = Some None \/ slot s i = None -> exists_ s j ->
  owned (set_slot (set_slot s i (Some (value s j))) j (Some None)) (upd (upd e i (e j)) j (Some None)).
Proof.
  intros [R1 R2 R3 R4 R5] N H Hj. unfold exists_ in Hj. unfold value. destruct (slot s j) as [v|] eqn:Ej; [|congruence]. constructor; cbn [set_slot table slot]; auto.
  - intros k. unfold upd. destruct (Nat.eqb_spec k j); auto. destruct (Nat.eqb_spec k i); auto. rewrite R1, Ej. now destruct v.
  - intros k h. unfold upd. destruct (Nat.eqb_spec k j); [discriminate|]. destruct (Nat.eqb_spec k i); [|eauto]. intros X. injection X as ->. eauto.
  - intros a b h. unfold upd. destruct (Nat.eqb_spec a j), (Nat.eqb_spec b j); try discriminate. destruct (Nat.eqb_spec a i), (Nat.eqb_spec b i); subst; eauto; intros X Y.
    + injection X as ->. destruct n0. eapply R3; eauto.
    + injection Y as ->. destruct n. eapply R3; eauto.
  - intros h L. destruct (R4 h L) as (k & Ek). destruct (Nat.eq_dec k j) as [->|Nk]; [exists i|exists k]; rewrite upd_neq by auto; [rewrite upd_eq; congruence|]. rewrite upd_neq; auto. intros ->. destruct H; congruence.
Qed.
Lemma open_ok i h k s e : owned s e -> slot s i = Some None \/ slot s i = None -> fresh s h ->
  owned {| table := (h, k) :: table s; slot := upd (slot s) i (Some (Some h)) |} (upd e i (Some (Some k))).
Proof.
  intros [R1 R2 R3 R4 R5] H F. unfold fresh in F. assert (U : forall j, slot s j <> Some (Some h)) by (intros j Ej; apply (R2 j h Ej F)). constructor; cbn [set_slot table slot].
  - intros j. unfold upd. destruct (Nat.eqb_spec j i); [cbn; now rewrite Nat.eqb_refl|]. rewrite R1. destruct (slot s j) as [[g|]|] eqn:Ej; auto. cbn. destruct (Nat.eqb_spec h g); auto. subst. now destruct (U j).
  - intros j g. unfold upd. cbn. destruct (Nat.eqb_spec j i); [intros X; injection X as ->; rewrite Nat.eqb_refl; discriminate|]. intros Ej. destruct (Nat.eqb h g); [discriminate|eauto].
  - intros a b g. unfold upd. destruct (Nat.eqb_spec a i), (Nat.eqb_spec b i); subst; eauto; intros X Y; [injection X as <-|injection Y as <-]; now destruct (U _ ltac:(eassumption)).
  - intros g. cbn. destruct (Nat.eqb_spec h g) as [->|N]; [exists i; apply upd_eq|]. intros L. destruct (R4 g L) as (j & Ej). exists j. rewrite upd_neq; auto. intros ->. destruct H; congruence.
  - cbn. constructor; auto. intros X. apply lookup_in in X. congruence.
Qed.
Lemma upd_upd {B} (f : nat -> B) i a b x : upd (upd f i a) i b x = upd f i b x.
Proof. unfold upd. now destruct (Nat.eqb x i). Qed.
Lemma hstep_ok o s e : owned s e -> proper o s -> plain_copy o e -> exists s1, hstep o s = Ok s1 /\ owned s1 (expected_step o e).
Proof.
  intros R P C. destruct o as [i|i h k|i j|i j|i j h|i j h|i|i]; cbn [hstep proper plain_copy expected_step] in *; unfold exists_ in P.
  - eexists. split; [reflexivity|]. apply (null_ok i s e R); [right; destruct (slot s i); auto; destruct P; discriminate|auto].
  - destruct P as [P F]. eexists. split; [reflexivity|]. apply open_ok; auto. right. destruct (slot s i); auto. destruct P; discriminate.
  - destruct P as [P Pj]. eexists. split; [reflexivity|]. apply move_ok; auto; [intros ->; auto|]. right. destruct (slot s i); auto. destruct P; discriminate.
  - destruct P as [Pi Pj]. destruct (close_ok i s e R Pi) as (s1 & -> & R1 & K1 & K2 & _). cbn [rbind]. eexists. split; [reflexivity|]. destruct (Nat.eq_dec i j) as [<-|N].
    + unfold value. rewrite K2. eapply owned_ext; [apply (null_ok i); [apply (null_ok i s1 _ R1); [now left|right; reflexivity]|left; apply upd_eq|right; reflexivity]|]. intros x. cbn. rewrite !upd_upd. reflexivity.
    + eapply owned_ext; [apply move_ok; [exact R1|exact N|now left|unfold exists_; rewrite K1; auto]|]. intros x. unfold upd. destruct (Nat.eqb x j) eqn:E; auto. destruct (Nat.eqb_spec x i); auto. destruct (Nat.eqb_spec j i); [congruence|auto].
  - destruct P as (Pi & Pj & F). unfold duplicate, value. pose proof (o_refs s e R j) as Ej. unfold exists_ in *. destruct (slot s j) as [[g|]|] eqn:Es; [|congruence|congruence]. destruct (lookup g (table s)) as [k|] eqn:L; [|destruct (o_open s e R j g Es L)].
    eexists. split; [reflexivity|]. rewrite Ej. apply open_ok; auto. right. destruct (slot s i); auto. destruct Pi; discriminate.
  - destruct P as (Pi & Pj & F). destruct C as [C N]. destruct (close_ok i s e R Pi) as (s1 & -> & R1 & K1 & K2 & K3 & K4). cbn [rbind]. unfold duplicate, value. rewrite K1 by auto. pose proof (o_refs s e R j) as Ej. unfold exists_ in *. destruct (slot s j) as [[g|]|] eqn:Es; [|congruence|congruence]. rewrite (K4 j g) by auto. destruct (lookup g (table s)) as [k|] eqn:L; [|destruct (o_open s e R j g Es L)].
    eexists. split; [reflexivity|]. rewrite Ej. eapply owned_ext; [apply open_ok; [exact R1|now left|]|intros x; symmetry; apply upd_upd]. unfold fresh in *. destruct (lookup h (table s1)) eqn:E; auto. exfalso. apply (K3 h); congruence.
  - destruct (close_ok i s e R P) as (s1 & -> & R1 & _). eauto.
  - destruct (close_ok i s e R P) as (s1 & -> & R1 & K1 & K2 & _). cbn [rbind]. eexists. split; [reflexivity|]. eapply owned_ext; [apply (null_ok i s1 _ R1); [now left|left; reflexivity]|]. intros x. symmetry. apply upd_upd.
Qed.
Lemma empty_owned : owned empty (fun _ => None).
Proof. constructor; cbn; try discriminate; auto; [congruence|constructor]. Qed.
Lemma hrun_ok os : forall s e, owned s e -> proper_run os s -> plain_run os e -> exists s1, hrun os s = Ok s1 /\ owned s1 (fold_left (fun e o => expected_step o e) os e).
Proof.
  induction os as [|o os IH]; intros s e R P C; cbn [hrun fold_left]; [eauto|]. destruct P as [P1 P2], C as [C1 C2]. destruct (hstep_ok o s e R P1 C1) as (s1 & E & R1). rewrite E. cbn [rbind]. apply IH; auto.
Qed.
(** ** C65 *)
(** In every run each object refers to what it should, no handle is closed twice or used by
    two objects, and an open handle is owned by an object. *)
Theorem handles_owned_partial os : proper_run os empty -> plain_run os (fun _ => None) ->
  exists s, hrun os empty = Ok s /\
  (forall i, expected os i = match slot s i with None => None | Some None => Some None | Some (Some h) => Some (lookup h (table s)) end) /\
  (forall i j h, slot s i = Some (Some h) -> slot s j = Some (Some h) -> i = j) /\
  (forall h, In h (map fst (table s)) <-> exists i, slot s i = Some (Some h)).
Proof.
  intros P C. destruct (hrun_ok os _ _ empty_owned P C) as (s & E & R). exists s. split; auto. destruct R as [R1 R2 R3 R4 R5]. split; [exact R1|]. split; [exact R3|].
  intros h. rewrite <- lookup_in. split; [apply R4|intros (i & Ei); eauto].
Qed.
(** When all objects are destroyed, all handles are closed. *)
Theorem handles_closed_partial os s : proper_run os empty -> plain_run os (fun _ => None) -> hrun os empty = Ok s -> (forall i, expected os i = None) -> table s = [].
Proof.
  intros P C E H. destruct (handles_owned_partial os P C) as (s' & E' & A & _ & B). assert (s' = s) by congruence. subst s'. destruct (table s) as [|[h k] t] eqn:T; auto. exfalso. destruct (proj1 (B h)) as (i & Ei); [now left|].
  specialize (A i). rewrite H, Ei in A. discriminate.
Qed.
(** UniqueHandle can not be copied, so that the restriction on copies does not concern it. *)
Theorem unique_handles os : Forall (fun o => match o with CopyCtor _ _ _ | CopyAssign _ _ _ => False | _ => True end) os -> proper_run os empty ->
  exists s, hrun os empty = Ok s /\ (forall i, expected os i = None <-> slot s i = None) /\ ((forall i, slot s i = None) -> table s = []).
Proof.
  intros F P. assert (C : plain_run os (fun _ => None)). { clear P. generalize (fun _ : nat => @None (option kobj)). induction F as [|o os Ho F IH]; intros e; cbn; auto. split; auto. destruct o; cbn; auto; contradiction. }
  destruct (handles_owned_partial os P C) as (s & E & A & _). exists s. split; auto. split.
  - intros i. rewrite A. destruct (slot s i) as [[h|]|]; split; congruence.
  - intros H. eapply handles_closed_partial; eauto. intros i. rewrite A, H. auto.
Qed.
(** Violated: a copy of a SharedHandle that is null is a handle of the process, *)
Theorem shared_copy_null_refuted : exists os s, proper_run os empty /\ hrun os empty = Ok s /\ expected os 1 = Some None /\ slot s 1 = Some (Some 7) /\ lookup 7 (table s) = Some KProcess.
Proof.
  exists [Default 0; CopyCtor 1 0 7]. eexists. split; [|split; [reflexivity|auto]]. cbn [proper_run]. split; [cbn; unfold exists_, fresh; cbn; auto|]. intros s1 X. injection X as <-. split; [cbn; unfold exists_, fresh; cbn; repeat split; congruence|auto].
Qed.
(** and so is one that is assigned to itself, whose file is closed. *)
Theorem shared_self_assign_refuted : exists os s, proper_run os empty /\ hrun os empty = Ok s /\ expected os 0 = Some (Some (KFile 5)) /\ slot s 0 = Some (Some 4) /\ table s = [(4, KProcess)].
Proof.
  exists [OpenHandle 0 3 (KFile 5); CopyAssign 0 0 4]. eexists. split; [|split; [reflexivity|auto]]. cbn [proper_run]. split; [cbn; unfold exists_, fresh; cbn; auto|]. intros s1 X. injection X as <-. split; [cbn; unfold exists_, fresh; cbn; repeat split; congruence|auto].
Qed.
Example handles_demo : exists s, hrun [OpenHandle 0 3 (KFile 5); OpenHandle 1 4 (KFile 6); MoveAssign 0 1; OpenHandle 2 3 (KFile 7); CopyCtor 3 2 9; MoveCtor 4 0; Destroy 2; Destroy 1] empty = Ok s /\
  table s = [(9, KFile 7); (4, KFile 6)] /\ slot s 4 = Some (Some 4) /\ slot s 3 = Some (Some 9) /\ slot s 0 = Some None.
Proof. eexists. split; [reflexivity|auto]. Qed.

(** ** unique_ptr *)
(** What is expected: the pointers and the released objects have these, each of them once, and
    they are alive. *)
Definition pexists (s : pstate) (i : nat) : Prop := ptr s i <> None.
Definition pproper (o : pop) (s : pstate) : Prop :=
  match o with
  | PDefault i => ~ pexists s i
  | PNew i p => ~ pexists s i /\ ~ In p (alive s)
  | PMoveCtor i j => ~ pexists s i /\ pexists s j
  | PMoveAssign i j => pexists s i /\ pexists s j
  | PResetNew i p => pexists s i /\ ~ In p (alive s)
  | PResetRaw i p => pexists s i /\ In p (raw s)
  | PResetNull i | PRelease i | PDestroy i => pexists s i
  end.
Section Ptr.
Context (reenters : nat -> bool).
Fixpoint pproper_run (os : list pop) (s : pstate) : Prop := match os with [] => True | o :: r => pproper o s /\ forall s1, pstep reenters o s = Ok s1 -> pproper_run r s1 end.
Definition pempty : pstate := {| alive := []; ptr := fun _ => None; raw := [] |}.
Record powned (s : pstate) : Prop := {
  p_alive : forall p, In p (alive s) <-> In p (raw s) \/ exists i, ptr s i = Some (Some p);
  p_one : forall i j p, ptr s i = Some (Some p) -> ptr s j = Some (Some p) -> i = j;
  p_raw : forall i p, ptr s i = Some (Some p) -> ~ In p (raw s);
  p_nodup : NoDup (alive s);
  p_rawdup : NoDup (raw s) }.
Context (plain : forall p, reenters p = false).
Lemma erase_in p l x : NoDup l -> (In x (erase p l) <-> In x l /\ x <> p).
Proof.
  induction l as [|q l IH]; cbn [erase]; intros Hn; [cbn; tauto|]. apply NoDup_cons_iff in Hn. destruct Hn as [Hi Hn]. destruct (Nat.eqb_spec q p) as [->|N].
  - cbn. split; [intros X; split; [auto|intros ->; contradiction]|intros [[->|X] Y]; [congruence|auto]].
  - cbn. rewrite IH by auto. split; [intros [->|[X Y]]; auto|intros [[->|X] Y]; auto].
Qed.
Lemma erase_nodup p l : NoDup l -> NoDup (erase p l).
Proof.
  induction l as [|q l IH]; cbn [erase]; intros Hn; auto. apply NoDup_cons_iff in Hn. destruct Hn as [Hi Hn]. destruct (Nat.eqb_spec q p); auto. constructor; auto. intros X. apply erase_in in X; auto. tauto.
Qed.
Lemma destroy_ok i s : powned s -> pexists s i ->
  exists s1, destroy reenters i s = Ok s1 /\ ptr s1 = ptr s /\ raw s1 = raw s /\ NoDup (alive s1) /\ forall p, In p (alive s1) <-> In p (alive s) /\ ptr s i <> Some (Some p).
Proof.
  intros [R1 R2 R3 R4 R5] Hi. unfold destroy, pvalue. unfold pexists in Hi. destruct (ptr s i) as [[p|]|] eqn:E; [| |congruence].
  - assert (A : existsb (Nat.eqb p) (alive s) = true) by (apply existsb_exists; exists p; split; [apply R1; right; eauto|apply Nat.eqb_refl]). rewrite A, plain. eexists. split; [reflexivity|]. cbn [ptr raw alive]. split; [auto|]. split; [auto|]. split; [now apply erase_nodup|]. intros q. rewrite erase_in by auto. split; intros [X Y]; split; auto; congruence.
  - exists s. split; [reflexivity|]. split; [auto|]. split; [auto|]. split; [auto|]. intros q. split; [intros X; split; [auto|congruence]|tauto].
Qed.
(** Putting what nobody owns into a pointer whose object has been destroyed *)
Lemma place_ok i s s1 (v : option nat) (gone : list nat) : powned s -> pexists s i -> ptr s1 = ptr s -> NoDup (alive s1) ->
  (forall p, In p (alive s1) <-> (In p (alive s) \/ v = Some p) /\ ptr s i <> Some (Some p)) ->
  (forall p, v = Some p -> forall j, ptr s j <> Some (Some p)) ->
  (forall p, In p gone <-> In p (raw s) /\ v <> Some p) -> NoDup gone ->
  powned {| alive := alive s1; ptr := upd (ptr s1) i (Some v); raw := gone |}.
Proof.
  intros [R1 R2 R3 R4 R5] Hi Ep Hn Ha Hv Hg Hgn. constructor; cbn [alive ptr raw]; auto; rewrite Ep.
  - intros p. rewrite Ha, Hg, R1. split.
    + intros [[[X|(j & Ej)]|X] Y].
      * assert (D : v = Some p \/ v <> Some p) by (destruct v as [q|]; [destruct (Nat.eq_dec q p)|]; [left|right|right]; congruence). destruct D; [right; exists i; rewrite upd_eq; congruence|auto].
      * right. exists j. rewrite upd_neq; auto. intros ->. congruence.
      * right. exists i. rewrite upd_eq. congruence.
    + intros [[X Y]|(j & Ej)].
      * split; auto. intros Z. apply (R3 i p); auto.
      * unfold upd in Ej. destruct (Nat.eqb_spec j i) as [Eji|N].
        -- clear Eji. injection Ej as Ev. split; [now right|]. apply (Hv p Ev).
        -- split; [left; right; eauto|]. intros Z. apply N. eapply R2; eauto.
  - intros a b p. unfold upd. destruct (Nat.eqb_spec a i), (Nat.eqb_spec b i); subst; eauto; intros X Y.
    + injection X as ->. destruct (Hv p eq_refl b Y).
    + injection Y as ->. destruct (Hv p eq_refl a X).
  - intros a p. unfold upd. rewrite Hg. destruct (Nat.eqb_spec a i); [intros X; injection X as ->; tauto|]. intros X [Y _]. apply (R3 a p); auto.
Qed.
Lemma pmove_ok i j s : powned s -> i <> j -> ptr s i = Some None \/ ptr s i = None -> pexists s j ->
  powned (set_ptr (set_ptr s i (Some (pvalue s j))) j (Some None)).
Proof.
  intros [R1 R2 R3 R4 R5] N H Hj. unfold pexists in Hj. unfold pvalue. destruct (ptr s j) as [v|] eqn:Ej; [|congruence]. constructor; cbn [set_ptr alive ptr raw]; auto.
  - intros p. rewrite R1. split; (intros [X|(k & Ek)]; [now left|right]).
    + destruct (Nat.eq_dec k j) as [->|Nk]; [exists i|exists k]; rewrite upd_neq by auto; [rewrite upd_eq; congruence|]. rewrite upd_neq; auto. intros ->. destruct H; congruence.
    + unfold upd in Ek. destruct (Nat.eqb_spec k j); [discriminate|]. destruct (Nat.eqb_spec k i); [exists j; congruence|eauto].
  - intros a b h. unfold upd. destruct (Nat.eqb_spec a j), (Nat.eqb_spec b j); try discriminate. destruct (Nat.eqb_spec a i), (Nat.eqb_spec b i); subst; eauto; intros X Y.
    + injection X as ->. destruct n0. eapply R2; eauto.
    + injection Y as ->. destruct n. eapply R2; eauto.
  - intros a p. unfold upd. destruct (Nat.eqb_spec a j); [discriminate|]. destruct (Nat.eqb_spec a i); [|eauto]. intros X. injection X as ->. eauto.
Qed.

Lemma pstep_ok o s : powned s -> pproper o s -> exists s1, pstep reenters o s = Ok s1 /\ powned s1.
Proof.
  intros R P. pose proof R as [R1 R2 R3 R4 R5]. destruct o as [i|i p|i j|i j|i p|i|i p|i|i]; cbn [pstep pproper] in *.
  - eexists. split; [reflexivity|]. assert (E : ptr s i = None) by (unfold pexists in P; destruct (ptr s i); auto; destruct P; discriminate). constructor; cbn [set_ptr alive ptr raw]; auto.
    + intros p. rewrite R1. split; (intros [X|(k & Ek)]; [now left|right]); [exists k; rewrite upd_neq; auto; congruence|]. unfold upd in Ek. destruct (Nat.eqb k i); [discriminate|eauto].
    + intros a b p. unfold upd. destruct (Nat.eqb a i), (Nat.eqb b i); try discriminate. apply R2.
    + intros a p. unfold upd. destruct (Nat.eqb a i); [discriminate|apply R3].
  - destruct P as [P F]. eexists. split; [reflexivity|]. assert (E : ptr s i = None) by (unfold pexists in P; destruct (ptr s i); auto; destruct P; discriminate).
    assert (U : forall j, ptr s j <> Some (Some p)) by (intros j Ej; apply F, R1; eauto). constructor; cbn [alive ptr raw In]; auto.
    + intros q. rewrite R1. split.
      * intros [->|[X|(k & Ek)]]; [right; exists i; apply upd_eq|now left|right; exists k; rewrite upd_neq; auto; congruence].
      * intros [X|(k & Ek)]; [now right; left|]. unfold upd in Ek. destruct (Nat.eqb k i); [left; congruence|right; right; eauto].
    + intros a b q. unfold upd. destruct (Nat.eqb_spec a i), (Nat.eqb_spec b i); subst; eauto; intros X Y; [injection X as <-|injection Y as <-]; now destruct (U _ ltac:(eassumption)).
    + intros a q. unfold upd. destruct (Nat.eqb a i); [|apply R3]. intros X. injection X as <-. intros Y. apply F, R1. now left.
    + constructor; auto.
  - destruct P as [P Pj]. eexists. split; [reflexivity|]. apply pmove_ok; auto; [intros ->; auto|]. right. unfold pexists in P. destruct (ptr s i); auto. destruct P; discriminate.
  - destruct P as [Pi Pj]. unfold reset. destruct (destroy_ok i s R Pi) as (s1 & -> & E1 & E2 & E3 & E4). cbn [rbind]. eexists. split; [reflexivity|]. unfold pexists in Pj. unfold pvalue. destruct (ptr s j) as [v|] eqn:Ej; [|congruence].
    constructor; cbn [set_ptr alive ptr raw]; rewrite ?E1, ?E2; auto.
    + intros p. rewrite E4, R1. split.
      * intros [[X|(k & Ek)] Y]; [now left|]. right. destruct (Nat.eq_dec k j) as [->|N]; [exists i|exists k].
        -- rewrite upd_neq by (intros ->; congruence). rewrite upd_eq. congruence.
        -- rewrite !upd_neq; auto. intros ->. congruence.
      * intros [X|(k & Ek)]; [split; [now left|intros Z; apply (R3 i p); auto]|]. unfold upd in Ek. destruct (Nat.eqb_spec k j); [discriminate|]. destruct (Nat.eqb_spec k i) as [Eki|N].
        -- injection Ek as Ev. subst v. split; [right; eauto|]. intros Z. apply n. rewrite Eki. eapply R2; eauto.
        -- split; [right; eauto|]. intros Z. apply N. eapply R2; eauto.
    + intros a b p. unfold upd. destruct (Nat.eqb_spec a j), (Nat.eqb_spec b j); try discriminate. destruct (Nat.eqb_spec a i), (Nat.eqb_spec b i); subst; eauto; intros X Y.
      * injection X as ->. destruct n0. eapply R2; eauto.
      * injection Y as ->. destruct n. eapply R2; eauto.
    + intros a p. unfold upd. destruct (Nat.eqb_spec a j); [discriminate|]. destruct (Nat.eqb_spec a i); [|eauto]. intros X. injection X as ->. eauto.
  - destruct P as [Pi F]. assert (U : forall j, ptr s j <> Some (Some p)) by (intros j Ej; apply F, R1; eauto). set (s0 := {| alive := p :: alive s; ptr := ptr s; raw := raw s |}). unfold reset.
    assert (D : exists s1, destroy reenters i s0 = Ok s1 /\ ptr s1 = ptr s /\ raw s1 = raw s /\ NoDup (alive s1) /\ forall q, In q (alive s1) <-> (In q (alive s) \/ Some p = Some q) /\ ptr s i <> Some (Some q)).
    { unfold destroy, pvalue. cbn [s0 ptr alive raw]. unfold pexists in Pi. assert (ND : NoDup (p :: alive s)) by (constructor; auto). destruct (ptr s i) as [[q|]|] eqn:E; [| |congruence].
      - assert (A : existsb (Nat.eqb q) (p :: alive s) = true) by (apply existsb_exists; exists q; split; [right; apply R1; right; eauto|apply Nat.eqb_refl]). rewrite A, plain. eexists. split; [reflexivity|]. cbn [ptr raw alive]. split; [auto|]. split; [auto|]. split; [now apply erase_nodup|].
        intros x. rewrite erase_in by auto. cbn [In]. split; [intros [[->|X] Y]; split; auto; congruence|]. intros [[X|X] Y]; [|injection X as X]; split; auto; congruence.
      - eexists. split; [reflexivity|]. cbn [s0 ptr raw alive In]. split; [auto|]. split; [auto|]. split; [auto|]. intros x. split; [intros [->|X]; split; auto; congruence|]. intros [[X|X] Y]; auto. left. congruence. }
    destruct D as (s1 & E & E1 & E2 & E3 & E4). rewrite E. cbn [rbind]. eexists. split; [reflexivity|]. unfold set_ptr. apply (place_ok i s s1 (Some p) (raw s1)); auto; rewrite ?E2; auto.
    + intros q X. injection X as <-. auto.
    + intros q. split; [intros X; split; auto; intros Y; injection Y as <-; apply F, R1; now left|tauto].
  - unfold reset. destruct (destroy_ok i s R P) as (s1 & -> & E1 & E2 & E3 & E4). cbn [rbind]. eexists. split; [reflexivity|]. unfold set_ptr. apply (place_ok i s s1 None (raw s1)); auto; rewrite ?E2; auto.
    + intros q. rewrite E4. split; [tauto|]. intros [[X|X] Y]; [auto|discriminate].
    + discriminate.
    + intros q. split; [split; [auto|discriminate]|tauto].
  - destruct P as [Pi F]. unfold reset. destruct (destroy_ok i s R Pi) as (s1 & -> & E1 & E2 & E3 & E4). cbn [rbind]. eexists. split; [reflexivity|]. cbn [set_ptr alive ptr raw]. apply (place_ok i s s1 (Some p)); auto.
    + intros q. rewrite E4. split; [tauto|]. intros [[X|X] Y]; [auto|]. split; auto. injection X as <-. apply R1. now left.
    + intros q X j Ej. injection X as <-. apply (R3 j p); auto.
    + intros q. rewrite E2, erase_in by auto. split; intros [X Y]; split; auto; congruence.
    + rewrite E2. now apply erase_nodup.
  - unfold pvalue. unfold pexists in P. destruct (ptr s i) as [[p|]|] eqn:E; [| |congruence]; (eexists; split; [reflexivity|]); constructor; cbn [set_ptr alive ptr raw In]; auto.
    + intros q. rewrite R1. split.
      * intros [X|(k & Ek)]; [left; auto|]. destruct (Nat.eq_dec k i) as [->|N]; [left; left; congruence|right; exists k; now rewrite upd_neq].
      * intros [[->|X]|(k & Ek)]; [right; eauto|now left|]. unfold upd in Ek. destruct (Nat.eqb k i); [discriminate|eauto].
    + intros a b q. unfold upd. destruct (Nat.eqb a i), (Nat.eqb b i); try discriminate. apply R2.
    + intros a q. unfold upd. destruct (Nat.eqb_spec a i); [discriminate|]. intros X [<-|Y]; [apply n; eapply R2; eauto|apply (R3 a q); auto].
    + constructor; auto. apply (R3 i p E).
    + intros q. rewrite R1. split; (intros [X|(k & Ek)]; [now left|right]); [exists k; rewrite upd_neq; auto; congruence|]. unfold upd in Ek. destruct (Nat.eqb k i); [discriminate|eauto].
    + intros a b q. unfold upd. destruct (Nat.eqb a i), (Nat.eqb b i); try discriminate. apply R2.
    + intros a q. unfold upd. destruct (Nat.eqb a i); [discriminate|apply R3].
  - destruct (destroy_ok i s R P) as (s1 & -> & E1 & E2 & E3 & E4). cbn [rbind]. eexists. split; [reflexivity|]. constructor; cbn [set_ptr alive ptr raw]; rewrite ?E1, ?E2; auto.
    + intros q. rewrite E4, R1. split.
      * intros [[X|(k & Ek)] Y]; [now left|right]. exists k. rewrite upd_neq; auto. congruence.
      * intros [X|(k & Ek)]; [split; [now left|intros Z; apply (R3 i q); auto]|]. unfold upd in Ek. destruct (Nat.eqb_spec k i); [discriminate|]. split; [right; eauto|]. intros Z. apply n. eapply R2; eauto.
    + intros a b q. unfold upd. destruct (Nat.eqb a i), (Nat.eqb b i); try discriminate. apply R2.
    + intros a q. unfold upd. destruct (Nat.eqb a i); [discriminate|apply R3].
Qed.
(** Every object is deleted exactly once, when its pointer gives it up, and no two pointers
    have the same one; at the end only released objects are left. *)
Theorem unique_ptr_partial os : pproper_run os pempty ->
  exists s, prun reenters os pempty = Ok s /\ (forall p, In p (alive s) <-> In p (raw s) \/ exists i, ptr s i = Some (Some p)) /\
  (forall i j p, ptr s i = Some (Some p) -> ptr s j = Some (Some p) -> i = j) /\ NoDup (alive s) /\
  ((forall i, ptr s i = None) -> forall p, In p (alive s) <-> In p (raw s)).
Proof.
  assert (G : forall os s, powned s -> pproper_run os s -> exists s1, prun reenters os s = Ok s1 /\ powned s1).
  { clear os. induction os as [|o os IH]; intros s R P; cbn [prun]; [eauto|]. destruct P as [P1 P2]. destruct (pstep_ok o s R P1) as (s1 & E & R1). rewrite E. cbn [rbind]. apply IH; auto. }
  intros P. destruct (G os pempty) as (s & E & [R1 R2 R3 R4 R5]); auto.
  { constructor; cbn; try discriminate; try constructor; try tauto. intros [[]|(i & X)]. discriminate. }
  exists s. split; [exact E|]. split; [exact R1|]. split; [exact R2|]. split; [exact R4|]. intros H p. rewrite R1. split; [|now left]. intros [X|(i & Ei)]; auto. rewrite H in Ei. discriminate.
Qed.
End Ptr.
(** Violated: if the destructor of the object uses the pointer, the object is deleted twice:
    reset() changes m_p after the deletion. *)
Theorem unique_ptr_reentrant_refuted : exists reenters os, pproper_run reenters os pempty /\ prun reenters os pempty = UB.
Proof.
  exists (fun _ => true), [PNew 0 5; PResetNull 0]. split; [|reflexivity]. cbn [pproper_run]. split; [cbn; unfold pexists; cbn; auto|]. intros s1 X. injection X as <-. split; [cbn; unfold pexists; cbn; congruence|auto].
Qed.
Example unique_ptr_demo : exists s, prun (fun _ => false) [PNew 0 5; PNew 1 6; PMoveAssign 0 1; PResetNew 1 7; PRelease 0; PResetRaw 1 6; PMoveCtor 2 1; PDestroy 0; PDefault 3] pempty = Ok s /\ alive s = [6] /\ ptr s 2 = Some (Some 6) /\ ptr s 1 = Some None /\ raw s = [].
Proof. eexists. split; [reflexivity|auto]. Qed.
