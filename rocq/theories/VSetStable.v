(** Property C99: iterators and references of vector_set stay valid. *)
From Verif Require Import Common VSetModel VSetProg VSetSpec VSetTree VSetRotate VSetInsert VSetLookup VSetList VSetOps VSetProofs VSetBalance VSetProps.
From Coq Require Import ZifyBool ZifyNat Sorted.

Section Stable.
Context {T K : Type} (lt : T -> T -> bool) (ltKT : K -> T -> bool) (ltTK : T -> K -> bool).

(** What the documentation of an associative container promises: which variable has the
    element [v] with the iterator [h] after the call, if it was in variable [i] before;
    None if the call destroys it. *)
Definition follows (h : nat) (v : T) (i : nat) (o : vop T K) : option nat :=
  match o with
  | VEraseIt j h' => if (j =? i) && (h' =? h) then None else Some i
  | VEraseKey j k => if (j =? i) && (negb (ltKT k v) && negb (ltTK v k)) then None else Some i
  | VClear j | VDestroy j | VAssign j _ => if j =? i then None else Some i
  | VMove j j' => if j' =? i then Some j else Some i
  | VMoveAssign j j' => if j =? j' then if j =? i then None else Some i
                        else if j' =? i then Some j else if j =? i then None else Some i
  | _ => Some i
  end.
Fixpoint follows_all (h : nat) (v : T) (i : nat) (os : list (vop T K)) : option nat :=
  match os with
  | [] => Some i
  | o :: os' => match follows h v i o with Some j => follows_all h v j os' | None => None end
  end.

(** Handles are not used twice. *)
Definition hwf (s : sset (T := T)) : Prop := NoDup (map fst (snd s)) /\ forall h, In h (map fst (snd s)) -> h < fst s.

Lemma nodup_filter {A B} (f : A -> B) p (l : list A) : NoDup (map f l) -> NoDup (map f (filter p l)).
Proof.
  induction l as [|x l IH]; cbn; intros H; [constructor|]. inversion_clear H as [|? ? H1 H2].
  destruct (p x); cbn; auto. constructor; auto. intros Hi. apply H1.
  apply in_map_iff in Hi as (y & <- & Hy). apply in_map. apply filter_In in Hy. tauto.
Qed.
Lemma in_filter_fst {A B} (f : A -> B) p (l : list A) y : In y (map f (filter p l)) -> In y (map f l).
Proof. intros Hi. apply in_map_iff in Hi as (z & <- & Hz). apply in_map. apply filter_In in Hz. tauto. Qed.

Lemma sins_perm h v (l : list (nat * T)) e : In e (sins lt h v l) <-> e = (h, v) \/ In e l.
Proof.
  unfold sins. rewrite in_app_iff. cbn [In]. rewrite !filter_In, negb_true_iff.
  split.
  - intros [[? _]|[<-|[? _]]]; auto.
  - intros [->|H]; auto. destruct (lt (snd e) v) eqn:E; auto.
Qed.
Lemma nodup_insert {A} (a : A) l1 l2 : NoDup (l1 ++ l2) -> ~ In a (l1 ++ l2) -> NoDup (l1 ++ a :: l2).
Proof.
  induction l1 as [|x l1 IH]; cbn; intros H1 H2; [now constructor|].
  inversion_clear H1 as [|? ? H3 H4]. constructor.
  - rewrite in_app_iff in *. cbn. intros [H|[->|H]]; [tauto|tauto|tauto].
  - apply IH; tauto.
Qed.
Lemma nodup_split {A B} (f : A -> B) p (l : list A) : NoDup (map f l) ->
  NoDup (map f (filter p l) ++ map f (filter (fun x => negb (p x)) l)).
Proof.
  induction l as [|x l IH]; cbn; intros H; [constructor|]. inversion_clear H as [|? ? H1 H2].
  assert (N : ~ In (f x) (map f (filter p l) ++ map f (filter (fun x => negb (p x)) l))).
  { rewrite in_app_iff. intros [Hi|Hi]; apply in_filter_fst in Hi; tauto. }
  destruct (p x); cbn.
  - constructor; auto.
  - apply nodup_insert; auto.
Qed.
Lemma hwf_sins s v : hwf s -> hwf (S (fst s), sins lt (fst s) v (snd s)).
Proof.
  intros [H1 H2]. split; cbn [fst snd].
  - unfold sins. rewrite map_app. cbn [map fst]. apply nodup_insert; [now apply nodup_split|].
    rewrite in_app_iff. intros [Hi|Hi]; apply in_filter_fst, H2 in Hi; lia.
  - intros h Hi. apply in_map_iff in Hi as ([h' w] & <- & Hi). apply sins_perm in Hi as [[= -> ->]|Hi]; cbn; [lia|].
    apply (in_map fst), H2 in Hi. cbn in Hi. lia.
Qed.
Lemma hwf_insert b v s : hwf s -> hwf (fst (sinsert lt b v s)).
Proof.
  intros H. unfold sinsert. destruct (lookup _ _) as [[h w]|]; cbn [fst]; [|now apply hwf_sins].
  destruct H as [H1 H2]. split; auto. intros h' Hi. apply H2 in Hi. destruct b; cbn; lia.
Qed.
Lemma hwf_erase h s : hwf s -> hwf (serase h s).
Proof. intros [H1 H2]. split; cbn; [now apply nodup_filter|]. intros h' Hi. apply in_filter_fst in Hi. auto. Qed.
Lemma hwf_nil n : hwf (n, []).
Proof. split; cbn; [constructor|tauto]. Qed.
Lemma fst_combine_seq (vs : list T) : forall n, map fst (combine (seq n (length vs)) vs) = seq n (length vs).
Proof. induction vs as [|v vs IH]; intros n; cbn; f_equal; auto. Qed.
Lemma hwf_renumber n vs : hwf (renumber n vs).
Proof.
  split; cbn; rewrite fst_combine_seq; [apply seq_NoDup|]. intros h Hi. apply in_seq in Hi. lia.
Qed.

Definition ewf (e : senv (T := T)) : Prop := forall i s, e i = Some s -> hwf s.
Lemma ewf_upd e i s : ewf e -> hwf s -> ewf (upd e i (Some s)).
Proof. intros H Hs j s'. unfold upd. destruct (Nat.eqb_spec j i); [intros [= <-]; auto|apply H]. Qed.
Lemma ewf_upd_none e i : ewf e -> ewf (upd e i None).
Proof. intros H j s'. unfold upd. destruct (Nat.eqb_spec j i); [discriminate|apply H]. Qed.

Lemma lookup_in p (l : list (nat * T)) h v : lookup p l = Some (h, v) -> In (h, v) l /\ p v = true.
Proof. unfold lookup. intros H. apply find_some in H. exact H. Qed.
Lemma hwf_unique s h v w : hwf s -> In (h, v) (snd s) -> In (h, w) (snd s) -> v = w.
Proof.
  intros [H _]. induction (snd s) as [|[h' x] l IH]; cbn; [tauto|]. cbn in H. inversion_clear H as [|? ? H1 H2].
  intros [[= -> ->]|Ha] [[= ->]|Hb]; auto.
  - apply (in_map fst) in Hb. now cbn in Hb.
  - exfalso. subst. apply (in_map fst) in Ha. now cbn in Ha.
Qed.

(** The step: the handles stay unique, and the element is where [follows] says. *)
Lemma sstep_follows e o e' b : ewf e -> sstep lt ltKT ltTK e o = Some (e', b) ->
  ewf e' /\ forall h v i j s, follows h v i o = Some j -> e i = Some s -> In (h, v) (snd s) ->
              exists s', e' j = Some s' /\ In (h, v) (snd s').
Proof.
  intros W H.
  assert (Q : e' = e -> (forall h v i, follows h v i o = Some i) ->
    ewf e' /\ forall h v i j s, follows h v i o = Some j -> e i = Some s -> In (h, v) (snd s) ->
              exists s', e' j = Some s' /\ In (h, v) (snd s')).
  { intros -> F. split; auto. intros h v i j s Hf. rewrite F in Hf. injection Hf as <-. eauto. }
  destruct o as [i0|i0 j0|i0 j0|i0 j0|i0 j0|i0|i0 w|i0 w|i0 k|i0 h0|i0|i0|i0|i0 k|i0 k|i0 k|i0 n|i0 k|i0 k|i0 n|i0 n|i0 h0|i0 k|i0|i0|i0|i0|i0 h0|i0 h0|i0 h0|i0 j0];
    cbn [sstep follows] in *.
  all: try solve [apply Q; [repeat match type of H with match ?x with _ => _ end = _ => destruct x; try discriminate end; congruence|reflexivity]].
  - (* VNew *)
    destruct (e i0) as [s0|] eqn:E0; [discriminate|]. injection H as <- <-. split; [now apply ewf_upd, hwf_nil|].
    intros h v i j s [= <-] Hi Hin. exists s. split; auto. rewrite upd_neq; auto. congruence.
  - (* VCopy *)
    destruct (e i0) as [s0|] eqn:E0; [discriminate|]. destruct (e j0) as [s1|] eqn:E1; [|discriminate]. injection H as <- <-.
    split; [now apply ewf_upd, hwf_renumber|].
    intros h v i j s [= <-] Hi Hin. exists s. split; auto. rewrite upd_neq; auto. congruence.
  - (* VMove *)
    destruct (e i0) as [s0|] eqn:E0; [discriminate|]. destruct (e j0) as [s1|] eqn:E1; [|discriminate]. injection H as <- <-.
    split; [apply ewf_upd; [now apply ewf_upd, hwf_nil|eauto]|].
    intros h v i j s Hf Hi Hin. destruct (Nat.eqb_spec j0 i) as [->|Hn].
    + injection Hf as <-. rewrite upd_eq. exists s1. split; auto. congruence.
    + injection Hf as <-. assert (i <> i0) by congruence. rewrite !upd_neq by auto. eauto.
  - (* VAssign *)
    destruct (Nat.eqb_spec i0 j0) as [<-|Hij].
    + destruct (e i0) as [s0|] eqn:E0; [|discriminate]. injection H as <- <-. split; auto.
      intros h v i j s Hf. destruct (i0 =? i); [discriminate|]. injection Hf as <-. eauto.
    + destruct (e i0) as [s0|] eqn:E0; [|discriminate]. destruct (e j0) as [s1|] eqn:E1; [|discriminate]. injection H as <- <-.
      split; [now apply ewf_upd, hwf_renumber|].
      intros h v i j s Hf Hi Hin. destruct (Nat.eqb_spec i0 i) as [->|Hn]; [discriminate|]. injection Hf as <-.
      rewrite upd_neq by auto. eauto.
  - (* VMoveAssign *)
    destruct (Nat.eqb_spec i0 j0) as [<-|Hij].
    + destruct (e i0) as [s0|] eqn:E0; [|discriminate]. injection H as <- <-. split; [now apply ewf_upd, hwf_nil|].
      intros h v i j s Hf Hi Hin. destruct (Nat.eqb_spec i0 i) as [->|Hn]; [discriminate|]. injection Hf as <-.
      rewrite upd_neq by auto. eauto.
    + destruct (e i0) as [s0|] eqn:E0; [|discriminate]. destruct (e j0) as [s1|] eqn:E1; [|discriminate]. injection H as <- <-.
      split; [apply ewf_upd; [now apply ewf_upd, hwf_nil|eauto]|].
      intros h v i j s Hf Hi Hin. destruct (Nat.eqb_spec j0 i) as [->|Hn].
      * injection Hf as <-. rewrite upd_eq. exists s1. split; auto. congruence.
      * destruct (Nat.eqb_spec i0 i) as [->|Hn']; [discriminate|]. injection Hf as <-. rewrite !upd_neq by auto. eauto.
  - (* VDestroy *)
    destruct (e i0) as [s0|] eqn:E0; [|discriminate]. injection H as <- <-. split; [now apply ewf_upd_none|].
    intros h v i j s Hf Hi Hin. destruct (Nat.eqb_spec i0 i) as [->|Hn]; [discriminate|]. injection Hf as <-.
    rewrite upd_neq by auto. eauto.
  - (* VInsert *)
    destruct (e i0) as [s0|] eqn:E0; [|discriminate]. destruct (sinsert lt false w s0) as [s1 r] eqn:E1. injection H as <- <-.
    split; [apply ewf_upd; auto; replace s1 with (fst (sinsert lt false w s0)) by (now rewrite E1); eapply hwf_insert; eauto|].
    intros h v i j s [= <-] Hi Hin. destruct (Nat.eq_dec i i0) as [->|Hn]; [|rewrite upd_neq by auto; eauto].
    rewrite upd_eq. exists s1. split; auto. assert (s = s0) by congruence. subst s.
    unfold sinsert in E1. destruct (lookup _ _) as [[h1 w1]|]; injection E1 as <- <-; cbn [snd]; auto. apply sins_perm. auto.
  - (* VEmplace *)
    destruct (e i0) as [s0|] eqn:E0; [|discriminate]. destruct (sinsert lt true w s0) as [s1 r] eqn:E1. injection H as <- <-.
    split; [apply ewf_upd; auto; replace s1 with (fst (sinsert lt true w s0)) by (now rewrite E1); eapply hwf_insert; eauto|].
    intros h v i j s [= <-] Hi Hin. destruct (Nat.eq_dec i i0) as [->|Hn]; [|rewrite upd_neq by auto; eauto].
    rewrite upd_eq. exists s1. split; auto. assert (s = s0) by congruence. subst s.
    unfold sinsert in E1. destruct (lookup _ _) as [[h1 w1]|]; injection E1 as <- <-; cbn [snd]; auto. apply sins_perm. auto.
  - (* VEraseKey *)
    destruct (e i0) as [s0|] eqn:E0; [|discriminate].
    destruct (lookup (eqvK ltKT ltTK k) (snd s0)) as [[h1 w1]|] eqn:E1; injection H as <- <-.
    + split; [apply ewf_upd, hwf_erase; eauto|].
      intros h v i j s Hf Hi Hin. destruct (Nat.eqb_spec i0 i) as [->|Hn].
      * assert (s = s0) by congruence. subst s. cbn [andb] in Hf.
        destruct (negb (ltKT k v) && negb (ltTK v k)) eqn:Ek; [discriminate|]. injection Hf as <-. rewrite upd_eq.
        eexists. split; [reflexivity|]. cbn. apply filter_In. split; auto. cbn [fst]. apply negb_true_iff, Nat.eqb_neq.
        intros ->. apply lookup_in in E1 as [E1 E2]. assert (v = w1) by (eapply hwf_unique; eauto). subst w1.
        unfold eqvK in E2. congruence.
      * cbn in Hf. injection Hf as <-. rewrite upd_neq by auto. eauto.
    + split; [apply ewf_upd; eauto|].
      intros h v i j s Hf Hi Hin. assert (j = i) by (destruct (_ && _) in Hf; congruence). subst j.
      destruct (Nat.eq_dec i i0) as [->|Hn]; [rewrite upd_eq|rewrite upd_neq by auto; eauto]. exists s0. split; auto. congruence.
  - (* VEraseIt *)
    destruct (e i0) as [s0|] eqn:E0; [|discriminate]. destruct (hpos h0 (snd s0)); [|discriminate]. injection H as <- <-.
    split; [apply ewf_upd, hwf_erase; eauto|].
    intros h v i j s Hf Hi Hin. destruct (Nat.eqb_spec i0 i) as [->|Hn].
    + assert (s = s0) by congruence. subst s. cbn [andb] in Hf.
      destruct (Nat.eqb_spec h0 h) as [->|Hh]; [discriminate|]. injection Hf as <-.
      rewrite upd_eq. eexists. split; [reflexivity|]. cbn. apply filter_In. split; auto. cbn [fst]. apply negb_true_iff, Nat.eqb_neq. auto.
    + cbn in Hf. injection Hf as <-. rewrite upd_neq by auto. eauto.
  - (* VClear *)
    destruct (e i0) as [s0|] eqn:E0; [|discriminate]. injection H as <- <-. split; [now apply ewf_upd, hwf_nil|].
    intros h v i j s Hf Hi Hin. destruct (Nat.eqb_spec i0 i) as [->|Hn]; [discriminate|]. injection Hf as <-.
    rewrite upd_neq by auto. eauto.
Qed.

Lemma srun_follows os : forall e e' vs b, ewf e -> srun lt ltKT ltTK e os = Some (e', vs, b) ->
  ewf e' /\ forall h v i j s, follows_all h v i os = Some j -> e i = Some s -> In (h, v) (snd s) ->
              exists s', e' j = Some s' /\ In (h, v) (snd s').
Proof.
  induction os as [|o os IH]; intros e e' vs b W H; cbn [srun follows_all] in *.
  - injection H as <- <- <-. split; auto. intros h v i j s [= <-]. eauto.
  - destruct (sstep lt ltKT ltTK e o) as [[e1 w]|] eqn:E1; [|discriminate].
    destruct (srun lt ltKT ltTK e1 os) as [[[e2 ws] b2]|] eqn:E2; [|discriminate]. injection H as <- <- <-.
    destruct (sstep_follows _ _ _ _ W E1) as [W1 F1]. destruct (IH _ _ _ _ W1 E2) as [W2 F2]. split; auto.
    intros h v i j s Hf Hi Hin. destruct (follows h v i o) as [k|] eqn:Ek; [|discriminate].
    destruct (F1 _ _ _ _ _ Ek Hi Hin) as (s1 & Hs1 & Hin1). eapply F2; eauto.
Qed.
Lemma ewf_init : ewf sinit.
Proof. intros i s. discriminate. Qed.

Lemma deref_spec (s : sset (T := T)) h v : hwf s -> In (h, v) (snd s) ->
  exists n, hpos h (snd s) = Some n /\ nth_error (elems (snd s)) n = Some v.
Proof.
  clear lt ltKT ltTK. intros [H _]. unfold hpos, elems. induction (snd s) as [|[h' x] l IH]; cbn; [tauto|]. cbn in H. inversion_clear H as [|? ? H1 H2].
  intros [[= -> ->]|Hi].
  - rewrite Nat.eqb_refl. exists 0. auto.
  - destruct (Nat.eqb_spec h' h) as [->|Hn].
    + exfalso. apply (in_map fst) in Hi. now cbn in Hi.
    + destruct (IH H2 Hi) as (n & -> & Hn'). exists (S n). auto.
Qed.
Lemma deref_in (s : sset (T := T)) h n v : hpos h (snd s) = Some n -> nth_error (elems (T := T) (snd s)) n = Some v -> In (h, v) (snd s).
Proof.
  unfold hpos, elems. revert n. induction (snd s) as [|[h' x] l IH]; cbn; [discriminate|].
  intros n. destruct (Nat.eqb_spec h' h) as [->|Hn]; [intros [= <-]; cbn; intros [= ->]; auto|].
  destruct (pos _ l) as [m|] eqn:E; [|discriminate]. cbn. intros [= <-]. cbn. eauto.
Qed.
End Stable.

Lemma srun_app_inv {T K} (lt : T -> T -> bool) (ltKT : K -> T -> bool) (ltTK : T -> K -> bool) os1 os2 : forall e e2 vs b,
  srun lt ltKT ltTK e (os1 ++ os2) = Some (e2, vs, b) ->
  exists e1 vs1 b1 vs2 b2, srun lt ltKT ltTK e os1 = Some (e1, vs1, b1) /\ srun lt ltKT ltTK e1 os2 = Some (e2, vs2, b2) /\
    vs = vs1 ++ vs2 /\ b = b1 && b2.
Proof.
  induction os1 as [|o os1 IH]; intros e e2 vs b H; cbn [srun app] in *.
  - exists e, [], true, vs, b. auto.
  - destruct (sstep lt ltKT ltTK e o) as [[e3 v]|]; [|discriminate].
    destruct (srun lt ltKT ltTK e3 (os1 ++ os2)) as [[[e4 vs4] b4]|] eqn:E4; [|discriminate]. injection H as <- <- <-.
    destruct (IH _ _ _ _ E4) as (e1 & vs1 & b1 & vs2 & b2 & -> & H2 & -> & ->).
    exists e1, (v :: vs1), (supported o && b1), vs2, b2. rewrite andb_assoc. auto.
Qed.

(** C99.  If after a legal program [os1] the iterator [h] of variable [i] gives the value
    [v], then after any legal continuation [os2] that does not destroy the element it
    gives the same value, from the variable that the element has been moved to; and the
    node it points to is the same one: nothing has been copied or moved in memory. *)
Theorem vset_iterators_stable :
  forall (T K : Type) (lt : T -> T -> bool) (ltKT : K -> T -> bool) (ltTK : T -> K -> bool),
    strict_weak lt -> keys_ok lt ltKT ltTK ->
    forall (os1 os2 : list (vop T K)) i j h v,
    answer lt ltKT ltTK os1 (VDeref i h) (BElt v) ->
    legal lt ltKT ltTK (os1 ++ [VDeref i h]) i -> legal lt ltKT ltTK (os1 ++ os2) j ->
    follows_all ltKT ltTK h v i os2 = Some j ->
    answer lt ltKT ltTK (os1 ++ os2) (VDeref j h) (BElt v) /\
    exists e vs s, vrun lt ltKT ltTK vinit (os1 ++ os2) = Ok (e, vs) /\ e j = Some s /\ val s h = Some v.
Proof.
  intros T K lt ltKT ltTK SW KO os1 os2 i j h v A L1 L2 F.
  destruct L2 as (se & vs & ss & L2 & Lj).
  destruct (srun_app_inv _ _ _ _ _ _ _ _ _ L2) as (e1 & vs1 & b1 & vs2 & b2 & R1 & R2 & -> & Eb). symmetry in Eb. apply andb_prop in Eb as [-> ->].
  destruct L1 as (se0 & vs0 & ss0 & L1 & Li).
  destruct (srun_app_inv _ _ _ _ _ _ _ _ _ L1) as (e1' & vs1' & b1' & vs2' & b2' & R1' & R2' & -> & _).
  rewrite R1 in R1'. injection R1' as <- <- <-.
  destruct (srun_follows _ _ _ _ _ _ _ _ (ewf_init (T := T)) R1) as [W1 _].
  destruct (srun_follows _ _ _ _ _ _ _ _ W1 R2) as [W2 F2].
  cbn [srun] in R2'. destruct (sstep lt ltKT ltTK e1 (VDeref i h)) as [[e2 w]|] eqn:E2; [|discriminate]. injection R2' as <- <- <-.
  (* the answer of the model is that of the specification *)
  destruct (answer_spec lt ltKT ltTK SW KO os1 e1 vs1 (VDeref i h) e2 w R1 eq_refl E2) as (m1 & ws1 & M1).
  destruct A as (m2 & ws2 & M2). rewrite M1 in M2. injection M2 as _ M2. apply app_inj_tail in M2 as [_ ->].
  cbn [sstep] in E2. destruct (e1 i) as [s1|] eqn:Ei; [|discriminate].
  destruct (hpos h (snd s1)) as [n|] eqn:Ep; [|discriminate]. destruct (nth_error (elems (snd s1)) n) as [v'|] eqn:Ev; [|discriminate].
  cbn in E2. injection E2 as _ ->. pose proof (deref_in _ _ _ _ Ep Ev) as Hin.
  destruct (F2 _ _ _ _ _ F Ei Hin) as (s2 & Hs2 & Hin2).
  split.
  - eapply answer_spec; eauto. cbn [sstep]. rewrite Hs2.
    destruct (deref_spec s2 h v (W2 _ _ Hs2) Hin2) as (n2 & -> & ->). reflexivity.
  - destruct (vset_live_nodes_are_elements T K lt ltKT ltTK SW KO (os1 ++ os2) se (vs1 ++ vs2) L2) as (e & He & Hl).
    specialize (Hl j). rewrite Hs2 in Hl. destruct Hl as (s & s' & Es & Hv & _).
    exists e, (vs1 ++ vs2), s. repeat split; auto. now apply Hv.
Qed.
Print Assumptions vset_iterators_stable.

(** 5 stays at its node while others come, go, and the set is moved; after the erasure of
    5 the program is over for its iterator; erasing 3 and 8 (nodes with two children) does
    not touch it. *)
Example vset_stable_case :
  follows_all Nat.ltb Nat.ltb 0 5 0
    [VInsert 0 3; VInsert 0 8; VInsert 0 4; VInsert 0 9; VEraseKey 0 8; VEraseIt 0 1; VMove 1 0; VInsert 1 7; VClear 0] = Some 1 /\
  legal Nat.ltb Nat.ltb Nat.ltb
    ([VNew 0; VInsert 0 5] ++ [VInsert 0 3; VInsert 0 8; VInsert 0 4; VInsert 0 9; VEraseKey 0 8; VEraseIt 0 1; VMove 1 0; VInsert 1 7; VClear 0]) 1 /\
  follows_all Nat.ltb Nat.ltb 0 5 0 [VInsert 0 3; VEraseKey 0 5] = None.
Proof. split; [reflexivity|split; [|reflexivity]]. eexists _, _, _. split; reflexivity. Qed.
