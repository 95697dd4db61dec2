(** Two streams that are read in step: if what is read from one stream, and the way a
    structure is read from it, has its counterpart for the other stream, then so has the
    reading of every type. *)
From Verif Require Import Common Int2ArrayModel CodecModel CodecSpec CodecProofs.
Local Open Scope Z_scope.

Section Sim.
Context {A B : Type} (E : env) (R : A -> B -> Prop).
Definition sim {X} (f : A -> res (X * A)) (g : B -> res (X * B)) : Prop :=
  forall a b x a', R a b -> f a = Ok (x, a') -> exists b', g b = Ok (x, b') /\ R a' b'.
Lemma sim_ret {X} (x : X) : sim (fun a => Ok (x, a)) (fun b => Ok (x, b)).
Proof. intros a b y a' H Q. injection Q as <- <-. eauto. Qed.
Lemma sim_bind {X Y} (f : A -> res (X * A)) g (k : X -> A -> res (Y * A)) l : sim f g -> (forall x, sim (k x) (l x)) ->
  sim (fun a => let* (x, a1) := f a in k x a1) (fun b => let* (x, b1) := g b in l x b1).
Proof.
  intros H1 H2 a b y a' HR Q. destruct (f a) as [[x a1]| |] eqn:Ea; cbn [rbind] in Q; try discriminate.
  destruct (H1 a b x a1 HR Ea) as (b1 & -> & R1). cbn [rbind]. eapply H2; eauto.
Qed.
Lemma sim_throw {X} e (g : B -> res (X * B)) : sim (fun _ => Throw e) g.
Proof. intros a b x a' _ Q. discriminate. Qed.
Lemma sim_ub {X} (g : B -> res (X * B)) : sim (fun _ => UB) g.
Proof. intros a b x a' _ Q. discriminate. Qed.
Lemma sim_if {X} (c : bool) (f1 f2 : A -> res (X * A)) g1 g2 : sim f1 g1 -> sim f2 g2 -> sim (fun a => if c then f1 a else f2 a) (fun b => if c then g1 b else g2 b).
Proof. destruct c; auto. Qed.
Lemma sim_map {X Y} (h : X -> Y) (f : A -> res (X * A)) g : sim f g -> sim (fun a => let* (x, a1) := f a in Ok (h x, a1)) (fun b => let* (x, b1) := g b in Ok (h x, b1)).
Proof. intros H. apply (sim_bind f g (fun x a => Ok (h x, a)) (fun x b => Ok (h x, b)) H). intros x. apply sim_ret. Qed.

Context (rawA : nat -> A -> res (bytes * A)) (rawB : nat -> B -> res (bytes * B)).
Context (hkA : nat -> list (reader A) -> list val -> A -> res (list val * A)) (hkB : nat -> list (reader B) -> list val -> B -> res (list val * B)).
Context (Hraw : forall n, sim (rawA n) (rawB n)).
Definition sims (r : reader A) (q : reader B) : Prop := forall o, sim (r o) (q o).
Context (Hhk : forall sid rs qs cur, Forall2 sims rs qs -> sim (hkA sid rs cur) (hkB sid qs cur)).

Lemma sim_int sg w : sim (get_int rawA sg w) (get_int rawB sg w).
Proof. unfold get_int. apply (sim_map (fun b => from_array sg w (rev b))). auto. Qed.
Lemma sim_bits f : forall n, sim (get_bits rawA f n) (get_bits rawB f n).
Proof.
  induction f as [|f IH]; intros [|n]; cbn [get_bits]; try apply sim_ret.
  apply (sim_bind _ _ (fun a s1 => let* (l, s2) := get_bits rawA f (S n - 8) s1 in Ok (map (fun i => Z.testbit a (Z.of_nat i)) (seq 0 (Nat.min 8 (S n))) ++ l, s2)) (fun a s1 => let* (l, s2) := get_bits rawB f (S n - 8) s1 in Ok (map (fun i => Z.testbit a (Z.of_nat i)) (seq 0 (Nat.min 8 (S n))) ++ l, s2)) (sim_int false 1)). intros z.
  apply (sim_map (fun l => map (fun i => Z.testbit z (Z.of_nat i)) (seq 0 (Nat.min 8 (S n))) ++ l)). apply IH.
Qed.
Lemma sim_list r q : sims r q -> forall l, sim (get_list r l) (get_list q l).
Proof.
  intros H. induction l as [|o l IH]; cbn [get_list]; [apply sim_ret|].
  apply (sim_bind (r o) (q o) (fun v s1 => let* (l0, s2) := get_list r l s1 in Ok (v :: l0, s2)) (fun v s1 => let* (l0, s2) := get_list q l s1 in Ok (v :: l0, s2)) (H o)).
  intros v. now apply (sim_map (cons v)).
Qed.
Lemma sim_add r q add : sim r q -> forall n acc, sim (get_add r add n acc) (get_add q add n acc).
Proof.
  intros H. induction n as [|n IH]; intros acc; cbn [get_add]; [apply sim_ret|].
  apply (sim_bind r q (fun v s1 => get_add r add n (add acc v) s1) (fun v s1 => get_add q add n (add acc v) s1) H). auto.
Qed.
Lemma sim_each rs qs : Forall2 sims rs qs -> forall l, sim (get_each rs l) (get_each qs l).
Proof.
  induction 1 as [|r q rs qs H HF IH]; intros l; cbn [get_each]; [apply sim_ret|].
  apply (sim_bind (r (hd VNone l)) (q (hd VNone l)) (fun v s1 => let* (l0, s2) := get_each rs (tl l) s1 in Ok (v :: l0, s2)) (fun v s1 => let* (l0, s2) := get_each qs (tl l) s1 in Ok (v :: l0, s2)) (H _)).
  intros v. now apply (sim_map (cons v)).
Qed.
Notation rdA := (read E rawA hkA). Notation rdB := (read E rawB hkB).
Lemma sim_elems t r q l : sims r q -> sim (get_elems rawA t r l) (get_elems rawB t q l).
Proof.
  intros H. destruct t; cbn [get_elems]; try (now apply sim_list). apply (sim_map (map VBool)). apply sim_bits.
Qed.
Lemma sims_map ts : Forall (fun t => sims (rdA t) (rdB t)) ts -> Forall2 sims (map rdA ts) (map rdB ts).
Proof. induction 1; cbn [map]; constructor; auto. Qed.
Lemma sim_size_bind {X} (k : Z -> A -> res (X * A)) l : (forall x, sim (k x) (l x)) ->
  sim (fun a => let* (x, a1) := get_size rawA a in k x a1) (fun b => let* (x, b1) := get_size rawB b in l x b1).
Proof. intros H. apply sim_bind; auto. apply sim_int. Qed.

Theorem read_sim t : sims (rdA t) (rdB t).
Proof.
  induction t using ty_ind'; intros o; cbn [read].
  - apply (sim_map VInt), sim_int.
  - apply (sim_map (fun z => VBool (negb (z =? 0)))), sim_int.
  - apply (sim_bind _ _ (fun z r => if bad_enum c z then Throw IoError else Ok (VInt z, r)) (fun z r => if bad_enum c z then Throw IoError else Ok (VInt z, r)) (sim_int sg w)).
    intros z. destruct (bad_enum c z); [apply sim_throw|apply sim_ret].
  - eapply sim_size_bind. intros n. cbv beta. destruct (over_limit _ _); [apply sim_throw|]. destruct (negb _); [apply sim_throw|].
    eapply (sim_map (fun l => VStr (map (fun v => match v with VInt z => z | _ => 0 end) l))). apply sim_list. intros o1. apply (sim_map VInt), sim_int.
  - apply (sim_map (fun z => VInt (Z.quot z k))), sim_int.
  - eapply sim_bind; [apply sim_int|]. intros z. cbv beta. destruct (z =? 0); [apply sim_ret|]. apply (sim_map VSome). apply IHt.
  - apply (sim_map VList). now apply sim_elems.
  - eapply sim_size_bind. intros z. cbv beta. destruct (negb _); [apply sim_throw|]. apply (sim_map VList). now apply sim_elems.
  - eapply sim_size_bind. intros z. cbv beta. apply (sim_map VList). apply sim_add, IHt.
  - eapply sim_size_bind. intros z. cbv beta. apply (sim_map VList). apply sim_add, IHt.
  - eapply sim_size_bind. intros z. cbv beta. apply (sim_map VList). apply sim_add. eapply sim_bind; [apply IHt1|]. intros x. apply (sim_map (VPair x)), IHt2.
  - eapply sim_size_bind. intros z. cbv beta. destruct (_ <=? z); [apply sim_ub|]. rewrite !nth_error_map.
    destruct (nth_error ts (Z.to_nat z)) as [t|] eqn:Et; cbn [option_map]; [|apply sim_ub]. apply (sim_map (VVar (Z.to_nat z))).
    apply nth_error_In in Et. rewrite Forall_forall in H. now apply H.
  - apply (sim_map VTup). now apply sim_each, sims_map.
  - apply (sim_map VTup). apply Hhk. clear -H. induction H; cbn [map]; constructor; auto.
Qed.
End Sim.
