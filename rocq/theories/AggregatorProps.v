(** C43: the aggregator calls its function when its arguments are complete. *)
From Coq Require Import ZifyBool ZifyNat.
From Verif Require Import Common AggregatorModel.

(** ** Specification in terms of the history of the operations *)
Section Spec.
Context {V : Type} (n : nat).

Notation op := (@aop V).

(** The value set last. *)
Fixpoint latest (i : nat) (h : list op) : option V :=
  match h with
  | [] => None
  | o :: h' =>
    match latest i h' with
    | Some v => Some v
    | None => match o with ASet j v => if Nat.eqb i j then Some v else None | ACancel => None end
    end
  end.

Definition is_cancel (o : op) : bool := match o with ACancel => true | _ => false end.
Definition cancelled (h : list op) : Prop := exists o, In o h /\ is_cancel o = true.
Definition complete (h : list op) : Prop := forall i, i < n -> latest i h <> None.

(** The arguments of a call that passes the latest values. *)
Definition is_latest (h : list op) (args : list V) : Prop :=
  length args = n /\ forall i, i < n -> nth_error args i = latest i h.

Definition allowed (o : op) : Prop := match o with ASet i _ => i < n | ACancel => True end.
End Spec.

(** ** Proof *)
Section Proof.
Context {V : Type} (moved : nat -> V -> V) (n : nat).
Notation op := (@aop V).

Lemma latest_app i (h h' : list op) : latest i (h ++ h') = match latest i h' with Some v => Some v | None => latest i h end.
Proof.
  induction h as [|o h IH]; cbn; [now destruct (latest i h')|]. rewrite IH. now destruct (latest i h').
Qed.

(** [fires h o]: the operation [o] after [h] makes a call. *)
Definition fires (h : list op) (o : op) : bool :=
  match o with
  | ASet _ _ => forallb (fun i => match latest i (h ++ [o]) with Some _ => true | None => false end) (seq 0 n) && negb (existsb is_cancel h)
  | ACancel => false
  end.

Definition sets (i : nat) (o : op) : bool := match o with ASet j _ => Nat.eqb i j | ACancel => false end.

(** How often the value of slot [i] has been moved from; [r] is the history, the last operation first. *)
Fixpoint stale (i : nat) (r : list op) : nat :=
  match r with
  | [] => 0
  | o :: r' => (if fires (rev r') o then 1 else 0) + (if sets i o then 0 else stale i r')
  end.

Definition times (k i : nat) (v : V) : V := Nat.iter k (moved i) v.

Definition slot (i : nat) (r : list op) : option V := option_map (times (stale i r) i) (latest i (rev r)).

Definition good (r : list op) (a : @agg V) : Prop :=
  length (m_values a) = n /\ m_cancelled a = existsb is_cancel (rev r) /\
  forall i, i < n -> nth_error (m_values a) i = Some (slot i r).

Lemma all_spec (vs : list (option V)) b : all (Agg vs b) = forallb (fun o => match o with Some _ => true | None => false end) vs.
Proof.
  unfold all. cbn [m_values].
  assert (H : forall f, negb (fold_left (fun (found : bool) (opt : option V) => match opt with None => true | Some _ => found end) vs f)
     = negb f && forallb (fun o => match o with Some _ => true | None => false end) vs).
  { induction vs as [|[v|] vs IH]; intros f; cbn.
    - now rewrite andb_true_r.
    - apply IH.
    - rewrite IH. now rewrite andb_false_r. }
  apply (H false).
Qed.

Lemma take_ok k (vs : list (option V)) : forallb (fun o => match o with Some _ => true | None => false end) vs = true ->
  exists args, take moved k vs = Ok (args, map (fun p => option_map (moved (fst p)) (snd p)) (combine (seq k (length vs)) vs)) /\ map Some args = vs.
Proof.
  revert k. induction vs as [|[v|] vs IH]; intros k H; cbn in *; try discriminate.
  - now exists [].
  - destruct (IH (S k) H) as (args & -> & E). exists (v :: args). cbn [rbind]. split; [reflexivity|]. cbn. congruence.
Qed.

Lemma nth_moved k (vs : list (option V)) i :
  nth_error (map (fun p => option_map (moved (fst p)) (snd p)) (combine (seq k (length vs)) vs)) i
  = option_map (option_map (moved (k + i))) (nth_error vs i).
Proof.
  revert k i. induction vs as [|v vs IH]; intros k [|i]; cbn; auto.
  - now rewrite Nat.add_0_r.
  - rewrite IH. now replace (S k + i) with (k + S i) by lia.
Qed.

Lemma forallb_nth {A} (f : A -> bool) (g : nat -> bool) l :
  (forall i, i < length l -> option_map f (nth_error l i) = Some (g i)) -> forallb f l = forallb g (seq 0 (length l)).
Proof.
  revert g. induction l as [|x l IH]; intros g H; [reflexivity|]. cbn.
  f_equal; [specialize (H 0 ltac:(cbn; lia)); cbn in H; congruence|].
  rewrite (IH (fun i => g (S i))).
  - rewrite <- seq_shift. clear. induction (seq 0 (length l)); cbn; auto. now rewrite IHl0.
  - intros i L. apply (H (S i)). cbn. lia.
Qed.

Lemma slot_some i r : match slot i r with Some _ => true | None => false end = match latest i (rev r) with Some _ => true | None => false end.
Proof. unfold slot. now destruct (latest i (rev r)). Qed.

(** The argument of slot [i] in the call made by [o] after [r]. *)
Definition argument (r : list op) (o : op) (i : nat) : option V :=
  option_map (times (if sets i o then 0 else stale i r) i) (latest i (rev r ++ [o])).

Lemma set_good r a i v : i < n -> good r a ->
  exists a' c, set_ moved a i v = Ok (a', c) /\ good (ASet i v :: r) a' /\
    (if fires (rev r) (ASet i v) then exists args, c = Some args /\ length args = n /\ forall j, j < n -> nth_error args j = argument r (ASet i v) j
     else c = None).
Proof.
  intros L (G1 & G2 & G3). destruct a as [vs b]; cbn [m_values m_cancelled] in *. unfold set_, guard. cbn [m_values m_cancelled].
  replace (i <? length vs) with true by lia.
  set (vs' := set_nth vs i (Some v)).
  assert (L' : length vs' = n) by (unfold vs'; rewrite set_nth_length; auto).
  assert (N : forall j, j < n -> nth_error vs' j = Some (argument r (ASet i v) j)).
  { intros j Lj. unfold vs', argument. rewrite latest_app. cbn. destruct (Nat.eqb_spec j i) as [->|Ne].
    - rewrite nth_error_set_nth_eq; [reflexivity|lia].
    - rewrite nth_error_set_nth_neq by congruence. rewrite G3 by auto. unfold slot. reflexivity. }
  rewrite all_spec.
  assert (F : forallb (fun o => match o with Some _ => true | None => false end) vs' && negb b = fires (rev r) (ASet i v)).
  { unfold fires. rewrite G2. f_equal. rewrite <- L'. apply forallb_nth. intros j Lj. rewrite N; [|lia]. cbn.
    unfold argument. now destruct (latest j (rev r ++ [ASet i v])). }
  rewrite F. destruct (fires (rev r) (ASet i v)) eqn:FE.
  - apply andb_prop in F. destruct F as [F1 F2]. destruct (take_ok 0 vs' F1) as (args & -> & E).
    cbn [rbind]. eexists; eexists; split; [reflexivity|]. split.
    + split; [|split]; cbn [m_values m_cancelled].
      * rewrite map_length, combine_length, seq_length. lia.
      * rewrite G2. cbn. rewrite existsb_app. cbn. now rewrite !orb_false_r.
      * intros j Lj. rewrite nth_moved, N by auto. cbn [option_map plus]. f_equal.
        unfold slot, argument. cbn [rev stale]. rewrite FE. unfold times.
        destruct (latest j (rev r ++ [ASet i v])); cbn; reflexivity.
    + exists args. split; [reflexivity|]. split; [rewrite <- L', <- E; now rewrite map_length|].
      intros j Lj. specialize (N j Lj). rewrite <- E in N. rewrite nth_error_map in N.
      destruct (nth_error args j); cbn in N; congruence.
  - eexists; eexists; split; [reflexivity|]. split; [|reflexivity].
    split; [|split]; cbn [m_values m_cancelled]; auto.
    + rewrite G2. cbn. rewrite existsb_app. cbn. now rewrite !orb_false_r.
    + intros j Lj. rewrite N by auto. unfold slot, argument. cbn [rev stale]. now rewrite FE.
Qed.

Lemma cancel_good r a : good r a -> good (ACancel :: r) (cancel a).
Proof.
  intros (G1 & G2 & G3). split; [|split]; cbn [cancel m_values m_cancelled]; auto.
  - cbn. rewrite existsb_app. cbn. now rewrite orb_true_r.
  - intros i L. rewrite G3 by auto. unfold slot. cbn [rev stale]. rewrite latest_app. cbn. reflexivity.
Qed.

(** What the call number [k] of the history must be. *)
Definition entry (h : list op) (o : op) (c : option (list V)) : Prop :=
  if fires h o then exists args, c = Some args /\ length args = n /\ forall j, j < n -> nth_error args j = argument (rev h) o j
  else c = None.

Lemma run_good os r a : Forall (allowed n) os -> good r a ->
  exists cs, arun moved a os = Ok cs /\ length cs = length os /\
  forall k o c, nth_error os k = Some o -> nth_error cs k = Some c -> entry (rev r ++ firstn k os) o c.
Proof.
  intros A. revert r a. induction A as [|o os Ao A IH]; intros r a G; cbn [arun].
  - exists []. split; [reflexivity|]. split; [reflexivity|]. intros [|k] o c; cbn; discriminate.
  - assert (S1 : exists a' c, (match o with ASet i v => set_ moved a i v | ACancel => Ok (cancel a, None) end) = Ok (a', c)
        /\ good (o :: r) a' /\ entry (rev r) o c).
    { destruct o as [i v|].
      - destruct (set_good r a i v Ao G) as (a' & c & E & G' & C). exists a', c. split; auto. split; auto.
        unfold entry. rewrite rev_involutive. exact C.
      - exists (cancel a), None. split; auto. split; [now apply cancel_good|reflexivity]. }
    destruct S1 as (a' & c & -> & G' & C). cbn [rbind]. destruct (IH _ _ G') as (cs & -> & Lc & K). cbn [rbind].
    exists (c :: cs). split; [reflexivity|]. split; [cbn; congruence|].
    intros [|k] o' c' Ho Hc; cbn in Ho, Hc.
    + injection Ho as <-. injection Hc as <-. cbn [firstn]. now rewrite app_nil_r.
    + cbn [firstn]. specialize (K k o' c' Ho Hc). cbn [rev] in K. rewrite <- app_assoc in K. exact K.
Qed.

Lemma good_init : good [] (agg_init n).
Proof.
  split; [apply repeat_length|]. split; [reflexivity|]. intros i L. unfold agg_init. cbn [m_values].
  rewrite nth_error_repeat by auto. reflexivity.
Qed.

Lemma fires_spec h o : fires h o = true <-> (exists i v, o = ASet i v) /\ complete n (h ++ [o]) /\ ~ cancelled h.
Proof.
  unfold fires, complete, cancelled. destruct o as [i v|].
  - rewrite andb_true_iff, forallb_forall, negb_true_iff.
    assert (E : existsb is_cancel h = false <-> ~ (exists o, In o h /\ is_cancel o = true)).
    { rewrite <- not_true_iff_false, existsb_exists. reflexivity. }
    rewrite E. split.
    + intros [A B]. split; [eauto|]. split; [|exact B]. intros j L. specialize (A j ltac:(apply in_seq; lia)).
      destruct (latest j (h ++ [ASet i v])); congruence.
    + intros (_ & A & B). split; [|exact B]. intros j L. apply in_seq in L. specialize (A j ltac:(lia)).
      destruct (latest j (h ++ [ASet i v])); congruence.
  - split; [discriminate|]. intros ((i & v & E) & _). discriminate.
Qed.
End Proof.

Section More.
Context {V : Type} (moved : nat -> V -> V) (n : nat).
Notation op := (@aop V).

Lemma times_id k i v : (forall i v, moved i v = v) -> times moved k i v = v.
Proof. intros H. unfold times. induction k as [|k IH]; cbn; auto. rewrite H. exact IH. Qed.

Lemma stale_zero i (r : list op) : (forall r1 o r2, r = r1 ++ o :: r2 -> fires n (rev r2) o = false) -> stale n i r = 0.
Proof.
  induction r as [|o r IH]; intros H; [reflexivity|]. cbn. rewrite (H [] o r eq_refl).
  destruct (sets i o); auto. cbn. apply IH. intros r1 o' r2 ->. apply (H (o :: r1)). reflexivity.
Qed.
End More.

(** ** Theorems *)

(** The code as it is: an operation makes a call exactly if it sets a value, all slots have been set
    by then, and the aggregator has not been cancelled before. *)
Theorem aggregator_calls_exact {V} (moved : nat -> V -> V) n os : Forall (allowed n) os ->
  exists cs, arun moved (agg_init n) os = Ok cs /\ length cs = length os /\
  forall k o c, nth_error os k = Some o -> nth_error cs k = Some c ->
    (c <> None <-> (exists i v, o = ASet i v) /\ complete n (firstn k os ++ [o]) /\ ~ cancelled (firstn k os)).
Proof.
  intros A. destruct (run_good moved n os [] _ A (good_init moved n)) as (cs & E & L & K).
  exists cs. split; auto. split; auto. intros k o c Ho Hc. specialize (K k o c Ho Hc). cbn [rev app] in K.
  unfold entry in K. rewrite <- (fires_spec moved). destruct (fires n (firstn k os) o).
  - destruct K as (args & -> & _). split; [auto|discriminate].
  - subst. split; [congruence|discriminate].
Qed.
Print Assumptions aggregator_calls_exact.

(** The first call has the latest values.  If the types are not changed by
    moving, or are passed by reference, every call has the latest values. *)
Theorem aggregator_latest_partial {V} (moved : nat -> V -> V) n os : Forall (allowed n) os ->
  exists cs, arun moved (agg_init n) os = Ok cs /\ length cs = length os /\
  forall k args, nth_error cs k = Some (Some args) ->
    ((forall j, j < k -> nth_error cs j = Some None) \/ (forall i v, moved i v = v)) ->
    is_latest n (firstn (S k) os) args.
Proof.
  intros A. destruct (run_good moved n os [] _ A (good_init moved n)) as (cs & E & L & K).
  exists cs. split; auto. split; auto. intros k args Hc P.
  destruct (nth_error os k) as [o|] eqn:Ho.
  2:{ apply nth_error_None in Ho. assert (nth_error cs k = None) by (apply nth_error_None; lia). congruence. }
  assert (FS : firstn (S k) os = firstn k os ++ [o]).
  { clear - Ho. revert k Ho. induction os as [|x os IH]; intros [|k] Ho; cbn in *; try discriminate.
    - now injection Ho as ->.
    - f_equal. now apply IH. }
  pose proof (K k o (Some args) Ho Hc) as C. cbn [rev app] in C. unfold entry in C.
  destruct (fires n (firstn k os) o); [|discriminate].
  destruct C as (args' & Q & LA & N). injection Q as <-. rewrite FS. split; auto.
  intros i Li. rewrite N by auto. unfold argument. rewrite rev_involutive.
  destruct P as [P|P].
  - rewrite (stale_zero n i (rev (firstn k os))).
    + replace (if sets i o then 0 else 0) with 0 by now destruct (sets i o).
      destruct (latest i (firstn k os ++ [o])); reflexivity.
    + intros r1 o' r2 RE. assert (F : firstn k os = rev r2 ++ o' :: rev r1).
      { rewrite <- (rev_involutive (firstn k os)), RE. rewrite rev_app_distr. cbn. now rewrite <- app_assoc. }
      set (j := length (rev r2)).
      assert (Lk : k < length os) by (apply nth_error_Some; congruence).
      assert (Lj : j < k).
      { assert (length (firstn k os) = k) by (apply firstn_length_le; lia). rewrite F in H. rewrite app_length in H. cbn in H. unfold j. lia. }
      assert (Hj : nth_error os j = Some o').
      { rewrite <- (firstn_skipn k os), F, <- app_assoc. unfold j. rewrite nth_error_app2 by lia. now rewrite Nat.sub_diag. }
      assert (Fj : firstn j os = rev r2).
      { rewrite <- (firstn_skipn k os), F, <- app_assoc. unfold j. rewrite firstn_app, Nat.sub_diag. cbn. now rewrite firstn_all, app_nil_r. }
      specialize (K j o' None Hj (P j Lj)). cbn [rev app] in K. unfold entry in K. rewrite Fj in K.
      destruct (fires n (rev r2) o'); auto. destruct K as (? & ? & _). discriminate.
  - destruct (latest i (firstn k os ++ [o])); cbn; [|reflexivity]. now rewrite times_id.
Qed.
Print Assumptions aggregator_latest_partial.

(** Nothing is called after the cancellation. *)
Theorem aggregator_cancelled {V} (moved : nat -> V -> V) n os os' : Forall (allowed n) (os ++ ACancel :: os') ->
  exists cs, arun moved (agg_init n) (os ++ ACancel :: os') = Ok cs /\
  forall k args, nth_error cs k = Some (Some args) -> k < length os.
Proof.
  intros A. destruct (aggregator_calls_exact moved n _ A) as (cs & E & L & K). exists cs. split; auto.
  intros k args Hc. destruct (Nat.lt_ge_cases k (length os)) as [|G]; auto. exfalso.
  destruct (nth_error (os ++ ACancel :: os') k) as [o|] eqn:Ho.
  2:{ apply nth_error_None in Ho. assert (nth_error cs k = None) by (apply nth_error_None; lia). congruence. }
  destruct (proj1 (K k o _ Ho Hc) ltac:(discriminate)) as ((i & v & ->) & _ & NC).
  destruct (Nat.eq_dec k (length os)) as [->|Ne].
  - rewrite nth_error_app2, Nat.sub_diag in Ho by lia. discriminate.
  - apply NC. exists ACancel. split; [|reflexivity]. rewrite firstn_app. apply in_or_app. right.
    destruct (k - length os) as [|m] eqn:M; [lia|]. now left.
Qed.
Print Assumptions aggregator_cancelled.

(** Violated: the function is called again when no value is missing. *)
Theorem aggregator_again_refuted : exists n (os : list (@aop nat)) cs k,
  Forall (allowed n) os /\ arun (fun _ v => v) (agg_init n) os = Ok cs /\
  complete n (firstn k os) /\ exists args, nth_error cs k = Some (Some args).
Proof.
  exists 2, [ASet 0 10; ASet 1 20; ASet 0 11], [None; Some [10; 20]; Some [11; 20]], 2.
  split; [repeat constructor|]. split; [reflexivity|]. split; [|eexists; reflexivity].
  intros [|[|i]] L; cbn; try discriminate; lia.
Qed.
Print Assumptions aggregator_again_refuted.

(** Violated: with parameters that are moved (std::string by value, moving leaves the empty string)
    such a call does not get the latest values. *)
Theorem aggregator_moved_refuted : exists n (os : list (@aop (list nat))) cs k args,
  Forall (allowed n) os /\ arun (fun _ _ => []) (agg_init n) os = Ok cs /\
  nth_error cs k = Some (Some args) /\ ~ is_latest n (firstn (S k) os) args.
Proof.
  exists 2, [ASet 0 [1]; ASet 1 [2]; ASet 0 [3]], [None; Some [[1]; [2]]; Some [[3]; []]], 2, [[3]; []].
  split; [repeat constructor|]. split; [reflexivity|]. split; [reflexivity|].
  intros [_ H]. specialize (H 1 ltac:(lia)). cbn in H. discriminate.
Qed.
Print Assumptions aggregator_moved_refuted.

(** Three slots filled out of order, one of them twice. *)
Example aggregator_demo : arun (fun _ v => v) (agg_init 3) [ASet 2 7; ASet 0 5; ASet 2 8; ASet 1 6; ACancel; ASet 0 9]
  = Ok [None; None; None; Some [5; 6; 8]; None; None].
Proof. reflexivity. Qed.
