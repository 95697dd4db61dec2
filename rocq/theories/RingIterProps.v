(** The iterators of awl::ring (C83). *)
From Coq Require Import ZifyBool ZifyNat.
From Verif Require Import Common RingModel RingSpec RingProofs RingIterModel.
Local Open Scope Z_scope.

(** ** Specification: an iterator is a position in a list, from 0 to its length; it does not
    leave this range *)
Section Spec.
Context {T : Type} (l : list T).
Notation len := (Z.of_nat (length l)).
Definition at_pos (p : Z) : option Z := if (0 <=? p) && (p <=? len) then Some p else None.
Definition elem (p : Z) : option T := if 0 <=? p then nth_error l (Z.to_nat p) else None.
Definition jstep (e : nat -> Z) (o : iop) : option ((nat -> Z) * iobs T) :=
  let set x p := match at_pos p with Some p => Some (upd e x p, JUnit) | None => None end in
  match o with
  | IBegin x => set x 0
  | IEnd x => set x len
  | INext x => set x (e x + 1)
  | IPrev x => set x (e x - 1)
  | IAdd x y d => set x (e y + d)
  | ISub x y d => set x (e y - d)
  | IAddTo x d => set x (e x + d)
  | ISubFrom x d => set x (e x - d)
  | IDiff x y => Some (e, JInt (e x - e y))
  | IEq x y => Some (e, JBool (e x =? e y))
  | INe x y => Some (e, JBool (negb (e x =? e y)))
  | ILess x y => Some (e, JBool (e x <? e y))
  | IDeref x => option_map (fun v => (e, JElt v)) (elem (e x))
  | IRDeref x => option_map (fun v => (e, JElt v)) (elem (e x - 1))
  end.
Fixpoint jrun (e : nat -> Z) (os : list iop) : option (list (iobs T)) :=
  match os with
  | [] => Some []
  | o :: os => match jstep e o with
               | Some (e1, v) => option_map (cons v) (jrun e1 os)
               | None => None
               end
  end.
End Spec.

Section Proofs.
Context {T : Type} (m : memory T) (i : nat) (r : rv) (l : list T).
Context (O : owns m r l) (Hlen : Z.of_nat (length l) < 2 ^ 63).

(** Positions of the iterators are those of the specification. *)
Definition agree (e : nat -> iter) (p : nat -> Z) : Prop := forall x, pos (e x) = p x /\ 0 <= p x <= Z.of_nat (length l).
Lemma wrap_id z : 0 <= z <= Z.of_nat (length l) -> size_wrap z = z.
Proof. intros H. unfold size_wrap. apply Z.mod_small. lia. Qed.
Lemma add_ok q d : 0 <= q <= Z.of_nat (length l) -> 0 <= q + d <= Z.of_nat (length l) -> size_wrap (q + size_wrap d) = q + d.
Proof. intros Hq Hd. unfold size_wrap. rewrite Zplus_mod_idemp_r. apply Z.mod_small. lia. Qed.
Lemma to_diff_id z : 0 <= z <= Z.of_nat (length l) -> to_diff z = z.
Proof. intros H. unfold to_diff. cbv zeta. rewrite Z.mod_small by lia. now replace (z <? 2 ^ 63) with true by lia. Qed.
Lemma deref_ok x p v : pos x = p -> elem l p = Some v -> it_deref m r x = Ok v.
Proof.
  intros <- E. unfold elem in E. destruct (0 <=? pos x) eqn:P; [|discriminate]. unfold it_deref. now apply load_ok with (l := l).
Qed.
Lemma agree_upd e p x y q : agree e p -> pos y = q -> 0 <= q <= Z.of_nat (length l) -> agree (upd e x y) (upd p x q).
Proof. intros A E H z. unfold upd. destruct (_ =? _)%nat; auto. Qed.
Lemma istep_ok e p o p' v : agree e p -> jstep l p o = Some (p', v) -> exists e', istep m i r e o = Ok (e', v) /\ agree e' p'.
Proof.
  intros A J.
  assert (S : forall x y q, match at_pos l q with Some q => Some (upd p x q, JUnit) | None => None end = Some (p', v) ->
    (0 <= q <= Z.of_nat (length l) -> pos y = q) -> v = JUnit /\ agree (upd e x y) p').
  { intros x y q Hs Hy. unfold at_pos in Hs. destruct ((0 <=? q) && (q <=? Z.of_nat (length l))) eqn:B; [|discriminate].
    injection Hs as <- <-. split; auto. apply agree_upd; auto; lia. }
  pose proof (owns_facts m r l O) as (Hs & _). unfold jstep in J. destruct o; cbn [istep].
  - destruct (S x (it_begin i) 0 J) as [-> A']; [auto|]. eauto.
  - destruct (S x (it_end i r) (Z.of_nat (length l)) J) as [-> A']; [intros _; cbn; lia|]. eauto.
  - destruct (S x (it_next (e x)) (p x + 1) J) as [-> A']; [|eauto]. intros H. cbn. destruct (A x) as [-> _]. now apply wrap_id.
  - destruct (S x (it_prev (e x)) (p x - 1) J) as [-> A']; [|eauto]. intros H. cbn. destruct (A x) as [-> _]. now apply wrap_id.
  - destruct (S x (it_add (e y) d) (p y + d) J) as [-> A']; [|eauto]. intros H. cbn. destruct (A y) as [-> ?]. now apply add_ok.
  - destruct (S x (it_sub (e y) d) (p y - d) J) as [-> A']; [|eauto]. intros H. cbn. destruct (A y) as [-> ?]. now apply add_ok.
  - destruct (S x (it_add (e x) d) (p x + d) J) as [-> A']; [|eauto]. intros H. cbn. destruct (A x) as [-> ?]. now apply add_ok.
  - destruct (S x (it_sub (e x) d) (p x - d) J) as [-> A']; [|eauto]. intros H. cbn. destruct (A x) as [-> ?]. now apply add_ok.
  - injection J as <- <-. exists e. split; auto. unfold it_diff. destruct (A x) as [-> ?], (A y) as [-> ?]. rewrite !to_diff_id by auto.
    cbv zeta. replace (_ && _) with true by lia. reflexivity.
  - injection J as <- <-. exists e. split; auto. unfold it_eq. destruct (A x) as [-> ?], (A y) as [-> ?]. reflexivity.
  - injection J as <- <-. exists e. split; auto. unfold it_ne, it_eq. destruct (A x) as [-> ?], (A y) as [-> ?]. reflexivity.
  - injection J as <- <-. exists e. split; auto. unfold it_lt. destruct (A x) as [-> ?], (A y) as [-> ?]. reflexivity.
  - destruct (elem l (p x)) as [w|] eqn:E; [|discriminate]. injection J as <- <-. rewrite (deref_ok (e x) (p x) w); [cbn [rbind]; eauto|apply A|auto].
  - destruct (elem l (p x - 1)) as [w|] eqn:E; [|discriminate]. injection J as <- <-. unfold it_rderef.
    rewrite (deref_ok (it_prev (e x)) (p x - 1) w); [cbn [rbind]; eauto| |auto]. cbn. destruct (A x) as [-> ?]. apply wrap_id.
    unfold elem in E. destruct (0 <=? p x - 1) eqn:B; [|discriminate]. lia.
Qed.
Lemma irun_ok os : forall e p vs, agree e p -> jrun l p os = Some vs -> irun m i r e os = Ok vs.
Proof.
  induction os as [|o os IH]; intros e p vs A J; cbn [jrun irun] in *; [now injection J as <-|].
  destruct (jstep l p o) as [[p1 v]|] eqn:S; [|discriminate]. destruct (jrun l p1 os) as [ws|] eqn:J'; [|discriminate]. injection J as <-.
  destruct (istep_ok e p o p1 v A S) as (e1 & -> & A1). cbn [rbind]. now rewrite (IH _ _ _ A1 J').
Qed.
End Proofs.

Section Props.
Context {T : Type} (eqb : T -> T -> bool).
Lemma ring_live os (e' : senv T) vs i c l : srun eqb sinit os = Some (e', vs, true) -> e' i = SLive c l ->
  exists st r, rrun eqb rinit os = Ok (st, vs) /\ snd st i = Some (Robj r) /\ cap r = c /\ owns (fst st) r l /\ Rel st e'.
Proof.
  intros S L. destruct (run_ok eqb os rinit sinit e' vs Rel_init S) as (st & R & Re). destruct (Rel_live _ _ _ _ _ Re L) as (r & Hr & Hc & O).
  exists st, r. auto.
Qed.
(** C83: after any history of the ring, programs that keep their iterators between begin() and
    end() observe what they would with positions in the list of the elements, forwards and in reverse. *)
Theorem ring_iterators os (e' : senv T) vs i c l : srun eqb sinit os = Some (e', vs, true) -> e' i = SLive c l -> Z.of_nat (length l) < 2 ^ 63 ->
  exists st r, rrun eqb rinit os = Ok (st, vs) /\ snd st i = Some (Robj r) /\
    forall js ws, jrun l (fun _ => 0) js = Some ws -> irun (fst st) i r (fun _ => it_begin i) js = Ok ws.
Proof.
  intros S L H. destruct (ring_live os e' vs i c l S L) as (st & r & R & V & _ & O & _). exists st, r. split; auto. split; auto.
  intros js ws J. eapply irun_ok; eauto. intros x. cbn. lia.
Qed.
(** C83: an iterator does not stay with its element: in a full ring push_back makes every
    iterator refer to the next element, without a full one push_front to the one before. *)
Lemma srun_one e (o : rop T) e' v b : sstep eqb e o = Some (e', v) -> supported e o = b -> srun eqb e [o] = Some (e', [v], b).
Proof. intros S <-. cbn [srun]. rewrite S. now rewrite andb_true_r. Qed.
Lemma srun_app os : forall e e1 vs1 b1 o e2 vs2 b2, srun eqb e os = Some (e1, vs1, b1) -> srun eqb e1 o = Some (e2, vs2, b2) ->
  srun eqb e (os ++ o) = Some (e2, vs1 ++ vs2, b1 && b2).
Proof.
  induction os as [|p os IH]; intros e e1 vs1 b1 o e2 vs2 b2 S1 S2; cbn [srun app] in *.
  - injection S1 as <- <- <-. now rewrite S2.
  - destruct (sstep eqb e p) as [[e3 v]|]; [|discriminate]. destruct (srun eqb e3 os) as [[[e4 vs4] b4]|] eqn:S3; [|discriminate].
    injection S1 as <- <- <-. rewrite (IH _ _ _ _ _ _ _ _ S3 S2). now rewrite andb_assoc.
Qed.
Theorem ring_iterator_shift_refuted os (e' : senv T) vs i c l v p x y : srun eqb sinit os = Some (e', vs, true) -> e' i = SLive c l ->
  (length l = c -> nth_error l p = Some x -> nth_error l (S p) = Some y ->
   exists st r st' r', rrun eqb rinit os = Ok (st, vs) /\ snd st i = Some (Robj r) /\
     rrun eqb rinit (os ++ [OPushBack i v]) = Ok (st', vs ++ [VUnit]) /\ snd st' i = Some (Robj r') /\
     let it := {| ring_of := i; pos := Z.of_nat p |} in it_deref (fst st) r it = Ok x /\ it_deref (fst st') r' it = Ok y) /\
  ((length l < c)%nat -> nth_error l p = Some x -> nth_error l (S p) = Some y ->
   exists st r st' r', rrun eqb rinit os = Ok (st, vs) /\ snd st i = Some (Robj r) /\
     rrun eqb rinit (os ++ [OPushFront i v]) = Ok (st', vs ++ [VUnit]) /\ snd st' i = Some (Robj r') /\
     let it := {| ring_of := i; pos := Z.of_nat (S p) |} in it_deref (fst st) r it = Ok y /\ it_deref (fst st') r' it = Ok x).
Proof.
  intros S L. destruct (ring_live os e' vs i c l S L) as (st & r & R & V & Hc & O & _).
  assert (P : forall o l', sstep eqb e' o = Some (upd e' i (SLive c l'), VUnit) -> supported e' o = true ->
    exists st' r', rrun eqb rinit (os ++ [o]) = Ok (st', vs ++ [VUnit]) /\ snd st' i = Some (Robj r') /\ owns (fst st') r' l').
  { intros o l' So Su. pose proof (srun_app _ _ _ _ _ _ _ _ _ S (srun_one _ _ _ _ _ So Su)) as S2. cbn [andb] in S2.
    destruct (ring_live _ _ _ i c l' S2) as (st' & r' & R' & V' & _ & O' & _); [apply upd_eq|]. exists st', r'. auto. }
  split; intros Hl Hx Hy.
  - destruct (P (OPushBack i v) (tl l ++ [v])) as (st' & r' & R' & V' & O').
    { cbn [sstep]. rewrite L. unfold bd_push_back. now replace (length l <? c)%nat with false by lia. }
    { reflexivity. }
    exists st, r, st', r'. do 4 (split; auto). cbv zeta. unfold it_deref. cbn [pos]. rewrite Nat2Z.id. split; eapply load_ok; eauto.
    rewrite nth_error_app1; [now rewrite nth_error_tl|]. destruct l; [now destruct p|]. cbn [tl]. apply nth_error_Some. cbn in Hy. congruence.
  - destruct (P (OPushFront i v) (v :: l)) as (st' & r' & R' & V' & O').
    { cbn [sstep]. rewrite L. unfold bd_push_front. now replace (length l <? c)%nat with true by lia. }
    { reflexivity. }
    exists st, r, st', r'. do 4 (split; auto). cbv zeta. unfold it_deref. cbn [pos]. rewrite Nat2Z.id. split; eapply load_ok; eauto.
Qed.
(** C83: a ring that has been moved from still has the size, and is not empty; iterating
    over it is undefined. *)
Lemma rrun_app os : forall st st1 vs1 o, rrun eqb st os = Ok (st1, vs1) ->
  rrun eqb st (os ++ o) = let* (st2, vs2) := rrun eqb st1 o in Ok (st2, vs1 ++ vs2).
Proof.
  induction os as [|p os IH]; intros st st1 vs1 o S1; cbn [rrun app] in *.
  - injection S1 as <- <-. destruct (rrun eqb st o) as [[st2 vs2]| |]; reflexivity.
  - destruct (rstep eqb st p) as [[e3 v]| |]; [|discriminate|discriminate]. cbn [rbind] in *.
    destruct (rrun eqb e3 os) as [[e4 vs4]| |] eqn:S3; [|discriminate|discriminate]. cbn [rbind] in S1. injection S1 as <- <-.
    rewrite (IH _ _ _ _ S3). destruct (rrun eqb e4 o) as [[st2 vs2]| |]; reflexivity.
Qed.
Theorem ring_moved_from_refuted os (e' : senv T) vs i j c x l : srun eqb sinit os = Some (e', vs, true) -> e' i = SLive c (x :: l) -> e' j = SNone ->
  (exists st', rrun eqb rinit (os ++ [OMove j i; OSize i]) = Ok (st', vs ++ [VUnit; VNat (S (length l))])) /\
  rrun eqb rinit (os ++ [OMove j i; OIter i]) = UB.
Proof.
  intros S L N. destruct (ring_live os e' vs i c _ S L) as (st & r & R & V & Hc & O & Re).
  pose proof (rel_var _ _ Re j) as Vj. rewrite N in Vj. cbn in Vj. pose proof (owns_facts _ _ _ O) as (Hs & _).
  assert (Hij : j <> i) by (intros ->; congruence).
  split.
  - eexists. rewrite (rrun_app _ _ _ _ _ R). cbn [rrun rstep]. unfold fresh_var, with_obj. rewrite Vj, V. cbn [move_ctor rbind].
    unfold query, with_var. cbn [snd]. rewrite upd_neq, upd_eq by auto. cbn [size rbind fst]. rewrite Hs. reflexivity.
  - rewrite (rrun_app _ _ _ _ _ R). cbn [rrun rstep]. unfold fresh_var, with_obj. rewrite Vj, V. cbn [move_ctor rbind].
    unfold query, with_var. cbn [snd]. rewrite upd_neq, upd_eq by auto. cbn [fst]. unfold to_list. cbn [size]. rewrite Hs. reflexivity.
Qed.
End Props.
(** C83: iterators of different rings are equal at one position. *)
Theorem ring_iterator_equal_refuted i j p : i <> j -> exists x y, ring_of x = i /\ ring_of y = j /\ pos x = p /\ it_eq x y = true.
Proof. exists {| ring_of := i; pos := p |}, {| ring_of := j; pos := p |}. cbn. unfold it_eq. cbn. auto using Z.eqb_refl. Qed.

(** ** A concrete case: a full ring that has wrapped around *)
Definition iter_demo : list (rop nat) := [ONew 0 3; OPushBack 0 1; OPushBack 0 2; OPushBack 0 3; OPushBack 0 4]%nat.
Example ring_iterators_demo :
  (exists e vs, srun Nat.eqb sinit iter_demo = Some (e, vs, true) /\ e 0%nat = SLive 3 [2; 3; 4]%nat) /\
  jrun [2; 3; 4]%nat (fun _ => 0) [IBegin 0; IEnd 1; IDiff 1 0; IPrev 1; IDeref 1; IAdd 2 0 1; IDeref 2; ILess 2 1; ISubFrom 1 1; IEq 1 2; IRDeref 2; IEnd 3; IRDeref 3]%nat =
    Some [JUnit; JUnit; JInt 3; JUnit; JElt 4; JUnit; JElt 3; JBool true; JUnit; JBool true; JElt 2; JUnit; JElt 4]%nat.
Proof. split; [do 2 eexists; split; reflexivity|]. vm_compute. reflexivity. Qed.
Example ring_iterator_shift_demo : match rrun Nat.eqb rinit iter_demo, rrun Nat.eqb rinit (iter_demo ++ [OPushBack 0 5])%nat with
  | Ok (st, _), Ok (st', _) =>
    match snd st 0%nat, snd st' 0%nat with
    | Some (Robj r), Some (Robj r') => it_deref (fst st) r {| ring_of := 0; pos := 1 |} = Ok 3%nat /\ it_deref (fst st') r' {| ring_of := 0; pos := 1 |} = Ok 4%nat
    | _, _ => False end
  | _, _ => False end.
Proof. vm_compute. auto. Qed.
