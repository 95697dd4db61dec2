(** C105: generators in variables. *)
From Coq Require Import ZifyBool ZifyNat.
From Verif Require Import Common GeneratorModel GenVarModel GenVarSpec.

Section Proofs.
Context {S V : Type}.
Variable step : S -> res (gout V S).
Notation gst := (gst S V).
Notation gstep := (gstep step).
Notation grun := (grun step).
Notation sstep := (sstep step).
Notation srun := (srun step).
Notation outcome := (outcome step).
Notation last := (last step).
Notation next := (next step).

Definition frame_of (a : S) (n : nat) (fr : gframe S V) : Prop :=
  match n with
  | 0 => fr = gcreate a
  | Datatypes.S m =>
    match outcome a m with
    | Some (GYield v b) => fr = GFrame (GSuspended b) (Some v) None
    | Some GReturn => fr = GFrame GDone None None
    | Some (GThrow e) => fr = GFrame GDone None (Some e)
    | None => False
    end
  end.

(** The states of the model and of the specification, where the handle [m] is held by an object that is not a variable. *)
Record rel (s : gst) (p : gspec) (m : option nat) : Prop := Rel {
  r_vars : forall x, vars s x = who p x;
  r_its : forall i, its s i = pos p i;
  r_made : made s = length (calls p);
  r_uniq : forall x y k, who p x = Some (Some k) -> who p y = Some (Some k) -> x = y;
  r_loose : forall k, m = Some k -> ~ alive p k;
  r_alive : forall k, frames s k <> None <-> alive p k \/ m = Some k;
  r_frame : forall k fr, frames s k = Some fr -> exists a, nth_error (calls p) k = Some a /\ frame_of a (adv p k) fr;
  r_fresh : forall k, length (calls p) <= k -> adv p k = 0;
  r_nodup : NoDup (destroyed s);
  r_dead : forall k, In k (destroyed s) <-> k < made s /\ frames s k = None
}.

Lemma rel_init : rel ginit gspec0 None.
Proof.
  split; cbn; auto; try discriminate.
  - intros k. split; [easy|]. intros [(x & H)|H]; discriminate.
  - constructor.
  - intros k. split; [easy|]. lia.
Qed.

Lemma nth_error_lt : forall A (l : list A) k x, nth_error l k = Some x -> k < length l.
Proof. intros. apply nth_error_Some. congruence. Qed.

(** Another distribution of the same handles. *)
Lemma rel_own : forall s p m w m', rel s p m ->
  (forall x y k, w x = Some (Some k) -> w y = Some (Some k) -> x = y) ->
  (forall k, m' = Some k -> forall x, w x <> Some (Some k)) ->
  (forall k, (exists x, w x = Some (Some k)) \/ m' = Some k <-> alive p k \/ m = Some k) ->
  forall s', frames s' = frames s -> made s' = made s -> destroyed s' = destroyed s -> its s' = its s -> (forall x, vars s' x = w x) ->
  rel s' (own p w) m'.
Proof.
  intros s p m w m' [] U L A s' E1 E2 E3 E4 E5.
  split; rewrite ?E1, ?E2, ?E3, ?E4; cbn [own calls adv who pos]; auto.
  - intros k K (x & X). exact (L k K x X).
  - intros k. rewrite r_alive0. symmetry. apply A.
Qed.

Lemma rel_drop : forall s p m, rel s p m -> exists s', drop s m = Ok s' /\ rel s' p None.
Proof.
  intros s p [k|] R; [|exists s; auto]. pose proof R as [].
  assert (K : frames s k <> None) by (apply r_alive0; auto). cbn [drop]. destruct (frames s k) as [fr|] eqn:F; [|easy].
  destruct (r_frame0 k fr F) as (a & A & _). apply nth_error_lt in A.
  eexists. split; [reflexivity|]. split; cbn [frames made destroyed vars its]; auto; try discriminate.
  - intros j. destruct (Nat.eq_dec j k) as [->|N].
    + rewrite upd_eq. split; [easy|]. intros [H|H]; [|easy]. exfalso. exact (r_loose0 k eq_refl H).
    + rewrite upd_neq by auto. rewrite r_alive0. split; intros [H|H]; auto; congruence.
  - intros j fr' H. destruct (Nat.eq_dec j k) as [->|N]; [rewrite upd_eq in H; discriminate|]. rewrite upd_neq in H by auto. eauto.
  - constructor; auto. rewrite r_dead0. intros []. congruence.
  - intros j. cbn [In]. rewrite r_dead0. destruct (Nat.eq_dec j k) as [->|N].
    + rewrite upd_eq. intuition lia.
    + rewrite upd_neq by auto. intuition congruence.
Qed.

Lemma rel_new : forall s p a, rel s p None -> rel (new_frame s a) (call p a (who p)) (Some (made s)).
Proof.
  intros s p a R. pose proof R as [].
  assert (N : forall k, made s <= k -> frames s k = None).
  { intros k K. destruct (frames s k) eqn:F; auto. destruct (r_frame0 k _ F) as (b & B & _). apply nth_error_lt in B. lia. }
  assert (W : forall k, made s <= k -> ~ alive p k).
  { intros k K H. apply N in K. assert (frames s k <> None) by (apply r_alive0; auto). easy. }
  split; cbn [new_frame call frames made destroyed vars its calls adv who pos]; auto.
  - rewrite app_length. cbn. lia.
  - intros k K. injection K as <-. intros (x & X). apply (W (made s)); [lia|]. exists x. exact X.
  - intros k. destruct (Nat.eq_dec k (made s)) as [->|E].
    + rewrite upd_eq. split; auto. easy.
    + rewrite upd_neq by auto. rewrite r_alive0. split; (intros [H|H]; [|congruence]); left; exact H.
  - intros k fr. destruct (Nat.eq_dec k (made s)) as [->|E].
    + rewrite upd_eq. intros F. injection F as <-. exists a. rewrite nth_error_app2, r_made0, Nat.sub_diag by lia. split; auto.
      rewrite r_fresh0 by lia. reflexivity.
    + rewrite upd_neq by auto. intros F. destruct (r_frame0 k fr F) as (b & B & Q). exists b. split; auto.
      rewrite nth_error_app1; auto. eapply nth_error_lt; eauto.
  - intros k. rewrite app_length. cbn. intros. apply r_fresh0. lia.
  - intros k. rewrite r_dead0. destruct (Nat.eq_dec k (made s)) as [->|E].
    + rewrite upd_eq. split; [|easy]. intros []. lia.
    + rewrite upd_neq by auto. intuition lia.
Qed.

Lemma rel_it : forall s p i m, rel s p None -> rel (set_it s i m) (GSpec (calls p) (adv p) (who p) (put (pos p) i (Some m))) None.
Proof.
  intros s p i m []. split; cbn [set_it frames made destroyed vars its calls adv who pos]; auto.
  intros j. unfold put. destruct (Nat.eqb_spec j i) as [->|N]; [apply upd_eq|rewrite upd_neq; auto].
Qed.

Definition exn_of (o : gout V S) : option exn := match o with GThrow e => Some e | _ => None end.

Lemma rel_adv : forall s p k, rel s p None -> alive p k ->
  match next p k with
  | Some o => exists s', advance step s k = Ok (s', exn_of o) /\ rel s' (move_on p k (pos p)) None
  | None => forall r, advance step s k <> Ok r
  end.
Proof.
  intros s p k R A. pose proof R as []. unfold advance, next.
  assert (K : frames s k <> None) by (apply r_alive0; auto). destruct (frames s k) as [fr|] eqn:F; [|easy].
  destruct (r_frame0 k fr F) as (a & E & Q). rewrite E.
  assert (G : match outcome a (adv p k) with
              | Some o => exists fr', gadvance step fr = Ok (fr', exn_of o) /\ frame_of a (Datatypes.S (adv p k)) fr'
              | None => forall r, gadvance step fr <> Ok r
              end).
  { unfold gadvance, gresume. unfold frame_of at 1. destruct (adv p k) as [|n] eqn:D.
    - cbn [frame_of] in Q. subst fr. cbn [gcreate gcode gexn]. unfold GenVarSpec.outcome. cbn [state_at]. destruct (step a) as [[v b| |e]| |] eqn:Y; cbn [rbind]; try discriminate.
      all: eexists; split; [reflexivity|]; reflexivity.
    - cbn [frame_of] in Q. set (m := Datatypes.S n) in *. assert (M : state_at step a m = match outcome a n with Some (GYield _ b) => Some b | _ => None end).
      { subst m. unfold GenVarSpec.outcome. cbn [state_at]. destruct (state_at step a n) as [c|]; auto. destruct (step c) as [[v b| |e]| |]; auto. }
      unfold GenVarSpec.outcome at 1 2. rewrite M. destruct (outcome a n) as [[v b| |e]|]; [| | |easy]; subst fr; cbn [gcode gexn]; try discriminate.
      destruct (step b) as [[v' b'| |e']| |]; cbn [rbind]; try discriminate.
      all: eexists; split; [reflexivity|]; reflexivity. }
  destruct (outcome a (adv p k)) as [o|].
  2:{ intros r H. destruct (gadvance step fr) as [[]| |]; try discriminate. exact (G _ eq_refl). }
  destruct G as (fr' & G1 & G2). rewrite G1. cbn [rbind]. eexists. split; [reflexivity|].
  split; cbn [set_frame move_on frames made destroyed vars its calls adv who pos]; auto.
  - intros j. destruct (Nat.eq_dec j k) as [->|N]; [rewrite upd_eq|rewrite upd_neq by auto].
    + split; [auto|easy].
    + rewrite r_alive0. tauto.
  - intros j fr2. destruct (Nat.eqb_spec j k) as [->|N]; [rewrite upd_eq|rewrite upd_neq by auto].
    + intros H. injection H as <-. exists a. auto.
    + apply r_frame0.
  - intros j J. destruct (Nat.eqb_spec j k) as [->|N]; auto. apply nth_error_lt in E. lia.
  - intros j. rewrite r_dead0. destruct (Nat.eq_dec j k) as [->|N]; [rewrite upd_eq|rewrite upd_neq by auto; tauto]. intuition congruence.
Qed.

Ltac puts := unfold put in *; repeat match goal with
  | H : context [?x =? ?y] |- _ => destruct (Nat.eqb_spec x y); subst
  | |- context [?x =? ?y] => destruct (Nat.eqb_spec x y); subst end.
Ltac upds := repeat first [rewrite upd_eq | rewrite upd_neq by congruence]; auto.

Lemma rel_pick : forall s p x m n, rel s p n -> who p x = Some m -> rel (set_var s x (Some None)) (own p (put (who p) x (Some None))) m \/ n <> None.
Proof.
  intros s p x m [|] R E; [right; easy|left]. pose proof R as [].
  eapply rel_own with (m := None); eauto.
  - intros y z k. puts; try discriminate. apply r_uniq0.
  - intros k -> y. puts; [discriminate|]. intros Y. apply n. eapply r_uniq0; eauto.
  - intros k. split.
    + intros [(y & Y)|Y]; left; [|exists x; congruence]. puts; [discriminate|]. exists y. auto.
    + intros [(y & Y)|Y]; [|easy]. destruct (Nat.eq_dec y x) as [->|N]; [right; congruence|]. left. exists y. puts; congruence.
  - intros y. cbn [set_var vars]. puts; upds.
Qed.

(** operator= with a parameter that holds [m] *)
Lemma rel_assign : forall s p x m, rel s p m ->
  match who p x with
  | Some _ => exists s', assign s x m = Ok s' /\ rel s' (own p (put (who p) x (Some m))) None
  | None => assign s x m = UB
  end.
Proof.
  intros s p x m R. pose proof R as []. unfold assign. rewrite r_vars0. destruct (who p x) as [n|] eqn:E; auto.
  apply rel_drop with (m := n). eapply rel_own; eauto.
  - intros y z k. puts; auto.
    + intros A B. exfalso. injection A as ->. eapply r_loose0; eauto. exists z. auto.
    + intros A B. exfalso. injection B as ->. eapply r_loose0; eauto. exists y. auto.
    + apply r_uniq0.
  - intros k -> y. puts.
    + intros A. injection A as ->. eapply r_loose0; eauto. exists x. auto.
    + intros A. apply n. eapply r_uniq0; eauto.
  - intros k. split.
    + intros [(y & Y)|Y]; [|left; exists x; congruence]. puts; [right; congruence|]. left. exists y. auto.
    + intros [(y & Y)|Y].
      * destruct (Nat.eq_dec y x) as [->|N]; [right; congruence|]. left. exists y. puts; congruence.
      * left. exists x. puts; congruence.
  - intros y. cbn [set_var vars]. puts; upds.
Qed.

Lemma own_own : forall (p : @gspec S) w w', own (own p w) w' = own p w'. Proof. reflexivity. Qed.

Lemma step_ok : forall o s p, rel s p None ->
  match gstep o s with
  | Ok (s', v) => exists p', sstep p o p' v /\ rel s' p' None
  | _ => forall p' v, ~ sstep p o p' v
  end.
Proof.
  intros o s p R. pose proof R as []. destruct o as [x a|x|x y|x y|x a|x y|x|i x|i j|i|i|i]; cbn [GenVarModel.gstep GenVarSpec.sstep].
  - rewrite r_vars0. destruct (who p x) eqn:E; [intros p' v (? & _); discriminate|]. eexists. split; [repeat split; auto|].
    pose proof (rel_new s p a R) as Q. rewrite <- r_made0. destruct Q.
    change (call p a (put (who p) x (Some (Some (made s))))) with (own (call p a (who p)) (put (who p) x (Some (Some (made s))))).
    eapply rel_own with (m := Some (made s)); [split; eauto|..]; auto; try easy; cbn [call who] in *.
    + intros y z k. puts; auto; try apply r_uniq0.
      * intros A B. exfalso. injection A as <-. apply (r_loose1 _ eq_refl). exists z. auto.
      * intros A B. exfalso. injection B as <-. apply (r_loose1 _ eq_refl). exists y. auto.
    + intros k. split.
      * intros [(y & Y)|Y]; [|easy]. puts; [right; congruence|]. left. exists y. auto.
      * intros [(y & Y)|Y]; left; [exists y|exists x]; puts; cbn [call who] in *; congruence.
    + intros y. cbn [set_var vars new_frame]. puts; upds.
  - rewrite r_vars0. destruct (who p x) eqn:E; [intros p' v (? & _); discriminate|]. eexists. split; [repeat split; auto|].
    eapply rel_own with (m := None); eauto; try easy.
    + intros y z k. puts; try easy. apply r_uniq0.
    + intros k. split.
      * intros [(y & Y)|Y]; [|easy]. puts; [easy|]. left. exists y. auto.
      * intros [(y & Y)|Y]; [|easy]. left. exists y. puts; congruence.
    + intros y. cbn [set_var vars]. puts; upds.
  - rewrite !r_vars0. destruct (who p x) eqn:E; [intros p' v (? & _); discriminate|].
    destruct (who p y) as [m|] eqn:F; [|intros p' v (_ & m & ? & _); discriminate]. assert (x <> y) by congruence.
    eexists. split; [split; [auto|]; exists m; repeat split; auto|].
    eapply rel_own with (m := None); eauto; try easy.
    + intros z t k. puts; try easy; try apply r_uniq0.
      * intros A B. exfalso. injection A as ->. assert (t = y) by (eapply r_uniq0; eauto). congruence.
      * intros A B. exfalso. injection B as ->. assert (z = y) by (eapply r_uniq0; eauto). congruence.
    + intros k. split.
      * intros [(z & Z)|Z]; [|easy]. left. puts; try easy; [exists y; congruence|exists z; auto].
      * intros [(z & Z)|Z]; [|easy]. left. destruct (Nat.eq_dec z y) as [->|N]; [exists x|exists z]; puts; congruence.
    + intros z. cbn [set_var vars]. unfold put. destruct (Nat.eqb_spec z x), (Nat.eqb_spec z y); subst; upds; easy.
  - rewrite r_vars0. destruct (who p y) as [m|] eqn:F; [|intros p' v (_ & m & ? & _); discriminate].
    destruct (rel_pick s p y m None R F) as [P|]; [|easy]. pose proof (rel_assign _ _ x m P) as A. cbn [own who] in A. unfold put at 1 in A.
    assert (W : who p x <> None \/ who p x = None) by (destruct (who p x); [left; easy|right; easy]).
    destruct W as [W|W].
    + assert (A' : exists s', assign (set_var s y (Some None)) x m = Ok s' /\ rel s' (own p (put (put (who p) y (Some None)) x (Some m))) None).
      { destruct (Nat.eqb_spec x y) as [->|]; [exact A|]. destruct (who p x); [exact A|easy]. }
      destruct A' as (s' & -> & A2). cbn [rbind]. eexists. split; [|exact A2]. split; auto. exists m. auto.
    + assert (x <> y) by congruence. destruct (Nat.eqb_spec x y) as [->|_]; [easy|]. rewrite W in A. rewrite A. cbn [rbind]. intros p' v (Q & _). easy.
  - pose proof (rel_assign _ _ x (Some (made s)) (rel_new s p a R)) as A. cbn [call who] in A.
    destruct (who p x) eqn:E.
    + destruct A as (s' & -> & A2). cbn [rbind]. eexists. split; [|rewrite r_made0 in A2; exact A2]. repeat split; auto. easy.
    + rewrite A. cbn [rbind]. intros p' v (Q & _). easy.
  - rewrite !r_vars0. destruct (who p x) as [m|] eqn:E; [|intros p' v (m & n & ? & _); discriminate].
    destruct (who p y) as [n|] eqn:F; [|intros p' v (? & n & _ & ? & _); discriminate].
    eexists. split; [exists m, n; repeat split; auto|].
    eapply rel_own with (m := None); eauto; try easy.
    + intros z t k A B. assert (Q : forall z, put (put (who p) x (Some n)) y (Some m) z = who p (if z =? y then x else if z =? x then y else z)).
      { intros u. puts; auto. }
      rewrite Q in A, B. pose proof (r_uniq0 _ _ _ A B) as U. clear - U. puts; congruence.
    + intros k. split.
      * intros [(z & Z)|Z]; [|easy]. left. puts; [exists x|exists y|exists z]; congruence.
      * intros [(z & Z)|Z]; [|easy]. left. exists (if z =? y then x else if z =? x then y else z). puts; congruence.
    + intros z. cbn [set_var vars]. unfold put. destruct (Nat.eqb_spec z x), (Nat.eqb_spec z y); subst; upds; easy.
  - rewrite r_vars0. destruct (who p x) as [m|] eqn:E; [|intros p' v (Q & _); easy].
    assert (P : rel (set_var s x None) (own p (put (who p) x None)) m).
    { eapply rel_own with (m := None); eauto.
      - intros y z k. puts; try discriminate. apply r_uniq0.
      - intros k -> y. puts; [discriminate|]. intros Y. apply n. eapply r_uniq0; eauto.
      - intros k. split.
        + intros [(y & Y)|Y]; left; [|exists x; congruence]. puts; [discriminate|]. exists y. auto.
        + intros [(y & Y)|Y]; [|easy]. destruct (Nat.eq_dec y x) as [->|N]; [right; congruence|]. left. exists y. puts; congruence.
      - intros y. cbn [set_var vars]. puts; upds. }
    destruct (rel_drop _ _ _ P) as (s' & -> & Q). cbn [rbind]. eexists. split; [|exact Q]. repeat split; auto. easy.
  - rewrite r_vars0. destruct (who p x) as [[k|]|] eqn:E; [| |intros p' v; easy].
    + assert (A : alive p k) by (exists x; auto). pose proof (rel_adv s p k R A) as Q. destruct (next p k) as [o|].
      * destruct Q as (s' & -> & Q). cbn [rbind]. destruct o as [v b| |e]; cbn [exn_of].
        all: try (eexists; split; [split; reflexivity|]; exact (rel_it s' _ i (Some k) Q)). eexists. split; [split; reflexivity|]. exact Q.
      * destruct (advance step s k) as [[]| |]; cbn [rbind]; auto. exfalso. exact (Q _ eq_refl).
    + eexists. split; [split; reflexivity|]. apply rel_it. auto.
  - rewrite r_its0. destruct (pos p j) as [m|] eqn:E; [|intros p' v (m & ? & _); discriminate].
    eexists. split; [exists m; repeat split; auto|]. apply rel_it. auto.
  - rewrite r_its0. destruct (pos p i) as [[k|]|] eqn:E; [|intros p' v (k & ? & _); discriminate..].
    destruct (frames s k) as [fr|] eqn:F.
    + assert (A : alive p k) by (assert (H : alive p k \/ None = Some k) by (apply r_alive0; congruence); destruct H; [auto|easy]).
      pose proof (rel_adv s p k R A) as Q. destruct (next p k) as [o|] eqn:O.
      * destruct Q as (s' & -> & Q). cbn [rbind]. destruct o as [v b| |e]; cbn [exn_of].
        all: eexists; split; [exists k; repeat split; [auto|]; rewrite O; reflexivity|]; exact Q.
      * destruct (advance step s k) as [[]| |] eqn:D; cbn [rbind]; [exfalso; exact (Q _ eq_refl)|..].
        all: intros p' v (k' & K & _ & _ & H); injection K as <-; rewrite O in H; easy.
    + unfold advance. rewrite F. cbn [rbind]. intros p' v (k' & K & A & _). injection K as <-. assert (frames s k <> None) by (apply r_alive0; auto). easy.
  - rewrite r_its0. destruct (pos p i) as [[k|]|] eqn:E; [| |intros p' v (k & ? & _); discriminate].
    + destruct (frames s k) as [fr|] eqn:F.
      * assert (A : alive p k) by (assert (H : alive p k \/ None = Some k) by (apply r_alive0; congruence); destruct H; [auto|easy]).
        eexists. split; [|exact R]. exists (Some k). split; [reflexivity|]. split; [reflexivity|]. split; auto.
        destruct (r_frame0 k fr F) as (a & A1 & A2). unfold GenVarSpec.last. rewrite A1. destruct (adv p k); cbn [frame_of] in A2; [subst; reflexivity|].
        destruct (outcome a n) as [[v b| |e]|]; try easy; subst; reflexivity.
      * intros p' v (m & M & _ & A). injection M as <-. destruct A as (A & _). assert (frames s k <> None) by (apply r_alive0; auto). easy.
    + eexists. split; [|exact R]. exists None. auto.
  - rewrite r_its0. destruct (pos p i) as [[k|]|] eqn:E; [|intros p' v (k & ? & ? & ? & _); discriminate..].
    destruct (frames s k) as [fr|] eqn:F.
    + assert (A : alive p k) by (assert (H : alive p k \/ None = Some k) by (apply r_alive0; congruence); destruct H; [auto|easy]).
      destruct (r_frame0 k fr F) as (a & A1 & A2). cbn [gderef].
      assert (L : last p k = match adv p k with 0 => None | Datatypes.S n => outcome a n end) by (unfold GenVarSpec.last; rewrite A1; destruct (adv p k); auto).
      destruct (adv p k) as [|n]; cbn [frame_of] in A2; [subst; cbn [gcreate gvalue rbind]; intros p' v (k' & x & b & K & _ & H & _); congruence|].
      destruct (outcome a n) as [[v b| |e]|]; try easy; subst; cbn [gvalue rbind].
      * eexists. split; [|exact R]. exists k, v, b. auto.
      * intros p' v (k' & x & b & K & _ & H & _). congruence.
      * intros p' v (k' & x & b & K & _ & H & _). congruence.
    + intros p' v (k' & x & b & K & A & _). injection K as <-. assert (frames s k <> None) by (apply r_alive0; auto). easy.
Qed.

(** The specification determines the result. *)
Lemma sstep_det : forall p o p1 v1 p2 v2, sstep p o p1 v1 -> sstep p o p2 v2 -> p1 = p2 /\ v1 = v2.
Proof.
  intros p o p1 v1 p2 v2. destruct o as [x a|x|x y|x y|x a|x y|x|i x|i j|i|i|i]; cbn [GenVarSpec.sstep].
  1, 2, 5, 7: intros (_ & -> & ->) (_ & -> & ->); auto.
  1, 2: intros (_ & m & M & -> & ->) (_ & n & N & -> & ->); rewrite M in N; injection N as <-; auto.
  - intros (m & n & M & N & -> & ->) (m' & n' & M' & N' & -> & ->). rewrite M in M'. rewrite N in N'. injection M' as <-. injection N' as <-. auto.
  - destruct (who p x) as [[k|]|]; try easy; [destruct (next p k) as [[]|]; try easy|]; intros (-> & ->) (-> & ->); auto.
  - intros (m & M & -> & ->) (n & N & -> & ->). rewrite M in N. injection N as <-. auto.
  - intros (k & K & _ & -> & H) (k' & K' & _ & -> & H'). rewrite K in K'. injection K' as <-. split; auto. destruct (next p k) as [[]|]; [congruence..|easy].
  - intros (m & M & -> & H) (n & N & -> & H'). rewrite M in N. injection N as <-. split; auto. destruct m; [destruct H, H'|]; congruence.
  - intros (k & x & b & K & _ & L & -> & ->) (k' & x' & b' & K' & _ & L' & -> & ->). split; auto. congruence.
Qed.

Lemma run_ok : forall os s p, rel s p None ->
  match grun os s with
  | Ok (s', vs) => exists p', srun p os p' vs /\ rel s' p' None
  | _ => forall p' vs, ~ srun p os p' vs
  end.
Proof.
  induction os as [|o os IH]; intros s p R; cbn [GenVarModel.grun GenVarSpec.srun]; [exists p; auto|].
  pose proof (step_ok o s p R) as Q. destruct (gstep o s) as [[s1 v]| |]; cbn [rbind].
  - destruct Q as (p1 & Q & R1). specialize (IH s1 p1 R1). destruct (grun os s1) as [[s2 vs]| |]; cbn [rbind].
    + destruct IH as (p2 & IH & R2). exists p2. split; [|auto]. exists p1. auto.
    + intros p' [|v' vs] H; auto. destruct H as (p1' & H1 & H2). destruct (sstep_det _ _ _ _ _ _ Q H1) as (<- & <-). exact (IH _ _ H2).
    + intros p' [|v' vs] H; auto. destruct H as (p1' & H1 & H2). destruct (sstep_det _ _ _ _ _ _ Q H1) as (<- & <-). exact (IH _ _ H2).
  - intros p' [|v' vs] H; auto. destruct H as (p1' & H1 & H2). exact (Q _ _ H1).
  - intros p' [|v' vs] H; auto. destruct H as (p1' & H1 & H2). exact (Q _ _ H1).
Qed.

Lemma srun_det : forall os p p1 v1 p2 v2, srun p os p1 v1 -> srun p os p2 v2 -> p1 = p2 /\ v1 = v2.
Proof.
  induction os as [|o os IH]; intros p p1 [|v1 vs1] p2 [|v2 vs2]; cbn [GenVarSpec.srun]; try easy; [intros -> ->; auto|].
  intros (q1 & A1 & A2) (q2 & B1 & B2). destruct (sstep_det _ _ _ _ _ _ A1 B1) as (<- & <-). destruct (IH _ _ _ _ _ A2 B2) as (<- & <-). auto.
Qed.

(** A program with generators in variables observes what the specification says: the values of the sequences and their ends
    do not depend on the variables that hold them.  Its behaviour is defined exactly when the specification defines it. *)
Theorem gen_var_refines : forall os vs,
  (exists s, grun os ginit = Ok (s, vs)) <-> (exists p, srun gspec0 os p vs).
Proof.
  intros os vs. pose proof (run_ok os ginit gspec0 rel_init) as Q. split.
  - intros (s & E). rewrite E in Q. destruct Q as (p & Q & _). exists p. auto.
  - intros (p & H). destruct (grun os ginit) as [[s vs']| |]; [|exfalso; exact (Q _ _ H)..].
    destruct Q as (p' & Q & _). destruct (srun_det _ _ _ _ _ _ Q H) as (_ & <-). exists s. auto.
Qed.

(** Each coroutine is destroyed at most once; it exists as long as exactly one variable holds it. *)
Theorem gen_var_owner : forall os s vs, grun os ginit = Ok (s, vs) ->
  NoDup (destroyed s) /\
  (forall k, k < made s -> (In k (destroyed s) /\ forall x, vars s x <> Some (Some k)) \/
                          (~ In k (destroyed s) /\ exists x, vars s x = Some (Some k) /\ forall y, vars s y = Some (Some k) -> y = x)) /\
  (forall x k, vars s x = Some (Some k) -> k < made s).
Proof.
  intros os s vs E. pose proof (run_ok os ginit gspec0 rel_init) as Q. rewrite E in Q. destruct Q as (p & _ & []).
  split; auto. assert (B : forall k, alive p k -> k < made s).
  { intros k A. assert (H : frames s k <> None) by (apply r_alive0; auto). destruct (frames s k) as [fr|] eqn:F; [|easy].
    destruct (r_frame0 k fr F) as (a & A1 & _). apply nth_error_lt in A1. lia. }
  split.
  - intros k K. destruct (frames s k) as [fr|] eqn:F.
    + right. rewrite r_dead0. split; [intros []; congruence|]. assert (H : alive p k \/ None = Some k) by (apply r_alive0; congruence).
      destruct H as [(x & X)|]; [|easy]. exists x. rewrite r_vars0. split; auto. intros y. rewrite r_vars0. intros Y. eapply r_uniq0; eauto.
    + left. rewrite r_dead0. split; auto. intros x. rewrite r_vars0. intros X. assert (frames s k <> None) by (apply r_alive0; left; exists x; auto). easy.
  - intros x k. rewrite r_vars0. intros X. apply B. exists x. auto.
Qed.

(** What is done with the variables alone is never undefined, if they exist. *)
Theorem gen_var_handles : forall os s vs o, grun os ginit = Ok (s, vs) ->
  match o with
  | GNew x _ | GEmpty x => vars s x = None
  | GMove x y => vars s x = None /\ vars s y <> None
  | GAssign x y | GSwap x y => vars s x <> None /\ vars s y <> None
  | GAssignNew x _ | GFree x => vars s x <> None
  | _ => False
  end -> exists s', gstep o s = Ok (s', ONone).
Proof.
  intros os s vs o E. pose proof (run_ok os ginit gspec0 rel_init) as Q. rewrite E in Q. destruct Q as (p & _ & R).
  pose proof (step_ok o s p R) as H. destruct R. intros P.
  assert (D : exists p', sstep p o p' ONone).
  { destruct o as [x a|x|x y|x y|x a|x y|x|i x|i j|i|i|i]; try easy; rewrite ?r_vars0 in P; cbn [GenVarSpec.sstep]; try (eexists; repeat split; eauto; fail).
    - destruct P as (P1 & P2). destruct (who p y) as [m|]; [|easy]. eexists. split; eauto.
    - destruct P as (P1 & P2). destruct (who p y) as [m|]; [|easy]. eexists. split; eauto.
    - destruct P as (P1 & P2). destruct (who p x) as [m|]; [|easy]. destruct (who p y) as [n|]; [|easy]. eexists. eauto 7. }
  destruct D as (p' & D). destruct (gstep o s) as [[s' v]| |]; [|exfalso; exact (H _ _ D)..].
  destruct H as (p2 & H & _). destruct (sstep_det _ _ _ _ _ _ D H) as (_ & <-). eauto.
Qed.

(** x = std::move(x) changes nothing. *)
Theorem gen_var_self : forall s x s1 v, gstep (GAssign x x) s = Ok (s1, v) ->
  (forall y, vars s1 y = vars s y) /\ frames s1 = frames s /\ destroyed s1 = destroyed s /\ its s1 = its s.
Proof.
  intros s x s1 v. cbn [GenVarModel.gstep]. destruct (vars s x) as [m|] eqn:E; [|discriminate]. unfold assign. cbn [set_var vars]. rewrite upd_eq. cbn [drop rbind].
  intros H. injection H as <- _. cbn [set_var vars frames destroyed its]. repeat split. intros y. destruct (Nat.eq_dec y x) as [->|]; upds.
Qed.
End Proofs.

(** The numbers from [n]; three generators, of which one is assigned over, moved and swapped while iterators are in use. *)
Example ex_gen_var :
  let step := fun s => Ok (if s =? 12 then GThrow RuntimeError else GYield (s * s) (s + 1)) in
  match GenVarModel.grun step
    [GNew 0 3; GNew 1 10; GBegin 0 0; GDeref 0; GCopy 1 0; GMove 2 0; GNext 1; GDeref 0;          (* i1 and i0 see 16 *)
     GSwap 1 2; GNext 0; GDeref 1; GBegin 2 2; GDeref 2; GAssign 2 2; GNext 2; GNext 2; GAtEnd 2; (* the second one throws *)
     GBegin 3 0; GAtEnd 3; GAssignNew 1 7; GFree 2; GBegin 3 1; GDeref 3] ginit with
  | Ok (s, vs) =>
      vs = [ONone; ONone; ONone; OVal 9; ONone; ONone; ONone; OVal 16; ONone; ONone; OVal 25; ONone; OVal 100; ONone; ONone;
            OExn RuntimeError; OBool true; ONone; OBool true; ONone; ONone; ONone; OVal 49] /\ destroyed s = [1; 0] /\
      GenVarModel.gstep step (GDeref 0) s = UB                                          (* the sequence of i0 has been destroyed *)
  | _ => False
  end.
Proof. vm_compute. auto. Qed.
