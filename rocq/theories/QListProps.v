(** quick_list / quick_link, property C20.  [qrun] runs the model of the pointer
    code, [srun] is the specification on sequences of QListSpec.v. *)
From Verif Require Import Common QListModel QListSpec QListProofs QListRel QListSim.
From Coq Require Import ZifyBool ZifyNat.

(** C20.  A program over any number of lists and elements that meets the
    preconditions has defined behaviour and every observation in it (front, back,
    empty, size, forward and backward traversal, included) is the one of the
    sequences. *)
Theorem quick_list_refines_sequences : forall (os : list qop) e' vs,
  srun sinit os = Some (e', vs) -> qrun qinit os = Ok vs.
Proof. intros os e' vs H. exact (sim_run os _ _ _ _ sim_init H). Qed.
Print Assumptions quick_list_refines_sequences.

Example quick_list_refines_sequences_case :
  let os := [QNewElem 1; QNewElem 2; QNewElem 3; QNewElem 4; QNewElem 5; QNewList 0; QNewList 1; QOne 0;
             QPushBack 0 1; QOne 0; QPushFront 0 2; QInsertAfter 2 3; QInsertBefore 2 4; QIter 0; QRIter 0;
             QPushBack 1 5; QSpliceFront 0 1; QIter 0; QEmpty 1; QExclude 3; QIncluded 3; QPushBack 1 3;
             QSpliceBack 1 0; QIter 1; QSize 0; QMoveElem 6 2; QIter 1; QIncluded 2; QAssignElem 6 4; QRIter 1;
             QPopFront 1; QPopBack 1; QMoveList 2 1; QIter 2; QIter 1; QMoveAssign 1 2; QFront 1; QBack 1] in
  option_map snd (srun sinit os) = Some
    [VUnit; VUnit; VUnit; VUnit; VUnit; VUnit; VUnit; VBool false;
     VUnit; VBool true; VUnit; VUnit; VUnit; VList [4; 2; 3; 1]; VList [1; 3; 2; 4];
     VUnit; VUnit; VList [5; 4; 2; 3; 1]; VBool true; VUnit; VBool false; VUnit;
     VUnit; VList [3; 5; 4; 2; 1]; VNat 0; VUnit; VList [3; 5; 4; 6; 1]; VBool false; VUnit; VList [1; 6; 5; 3];
     VElem 3; VElem 1; VUnit; VList [5; 6]; VList []; VUnit; VElem 5; VElem 6].
Proof. vm_compute. reflexivity. Qed.

(** Running a program and then one more. *)
Lemma srun_app os1 os2 : forall e, srun e (os1 ++ os2) =
  match srun e os1 with
  | None => None
  | Some (e1, vs1) => match srun e1 os2 with None => None | Some (e2, vs2) => Some (e2, vs1 ++ vs2) end
  end.
Proof.
  induction os1 as [|o os1 IH]; intros e; cbn [app srun].
  - destruct (srun e os2) as [[? ?]|]; reflexivity.
  - destruct (sstep e o) as [[e1 v]|]; [|reflexivity]. rewrite IH. destruct (srun e1 os1) as [[e2 vs1]|]; [|reflexivity].
    destruct (srun e2 os2) as [[e3 vs2]|]; reflexivity.
Qed.

Lemma run_then os e vs o v e1 : srun sinit os = Some (e, vs) -> sstep e o = Some (e1, v) -> qrun qinit (os ++ [o]) = Ok (vs ++ [v]).
Proof.
  intros H1 H2. apply quick_list_refines_sequences with e1. rewrite srun_app, H1. cbn [srun]. rewrite H2. reflexivity.
Qed.
Lemma srun_snoc os o e e1 vs v : srun sinit os = Some (e, vs) -> sstep e o = Some (e1, v) -> srun sinit (os ++ [o]) = Some (e1, vs ++ [v]).
Proof. intros H1 H2. rewrite srun_app, H1. cbn [srun]. rewrite H2. reflexivity. Qed.

(** Backward traversal is the reverse of forward traversal, and its length the size. *)
Theorem quick_list_backward_is_reverse : forall os e vs l s,
  srun sinit os = Some (e, vs) -> find_list (lists e) l = Some s ->
  qrun qinit (os ++ [QIter l]) = Ok (vs ++ [VList s]) /\
  qrun qinit (os ++ [QRIter l]) = Ok (vs ++ [VList (rev s)]) /\
  qrun qinit (os ++ [QSize l]) = Ok (vs ++ [VNat (length s)]) /\
  NoDup s.
Proof.
  intros os e vs l s H E.
  assert (X : forall o v, sstep e o = Some (e, v) -> qrun qinit (os ++ [o]) = Ok (vs ++ [v])) by (intros; eapply run_then; eauto).
  split; [|split; [|split]]; try (apply X; cbn [sstep]; now rewrite E).
  assert (Si : exists st, Sim st e).
  { assert (G : forall os' st0 e0 vs0, Sim st0 e0 -> srun e0 os' = Some (e, vs0) -> exists st, Sim st e).
    { induction os' as [|o os' IH]; cbn [srun]; intros st0 e0 vs0 S0 R0; [injection R0 as <- _; eauto|].
      destruct (sstep e0 o) as [[e1 v]|] eqn:E1; [|discriminate]. destruct (srun e1 os') as [[e2 vs']|] eqn:E2; [|discriminate].
      injection R0 as <- _. destruct (sim_step _ _ _ _ _ S0 E1) as (st1 & _ & S1). eauto. }
    eapply G; [apply sim_init|exact H]. }
  destruct Si as (st & R & _). eapply (r_nd _ _ _ R); eauto.
Qed.
Print Assumptions quick_list_backward_is_reverse.

(** An excluded element is in no list: it reports so, and no traversal meets it. *)
Theorem quick_list_excluded_is_nowhere : forall os e vs n e1,
  srun sinit os = Some (e, vs) -> sstep e (QExclude n) = Some (e1, VUnit) ->
  qrun qinit (os ++ [QExclude n; QIncluded n]) = Ok (vs ++ [VUnit; VBool false]) /\
  forall l s, find_list (lists e1) l = Some s ->
    qrun qinit (os ++ [QExclude n; QIter l]) = Ok (vs ++ [VUnit; VList s]) /\ ~ In n s.
Proof.
  intros os e vs n e1 H E.
  assert (A : forall o v, sstep e1 o = Some (e1, v) -> qrun qinit (os ++ [QExclude n; o]) = Ok (vs ++ [VUnit; v])).
  { intros o v Ho. apply quick_list_refines_sequences with e1. rewrite srun_app, H. cbn [srun]. rewrite E, Ho. reflexivity. }
  assert (Hm : member e1 n = false /\ elems e1 = elems e /\ lists e1 = edit (without n) (lists e)).
  { cbn [sstep] in E. destruct (member e n); [|discriminate]. injection E as <-. split; [|auto]. unfold member. cbn [lists with_lists]. clear.
    unfold edit. induction (lists e) as [|[k t] ls IH]; cbn [map existsb snd]; [reflexivity|].
    destruct (mem_of n (without n t)) eqn:Em; [|exact IH]. apply mem_of_in in Em. unfold without in Em.
    apply filter_In in Em as [_ Em]. rewrite Nat.eqb_refl in Em. discriminate. }
  destruct Hm as (Hm & He & Hl). split.
  - apply A. cbn [sstep]. assert (Ho : elems e n = Out).
    { assert (G : forall os' st0 e0 vs0, Sim st0 e0 -> srun e0 os' = Some (e, vs0) -> exists st, Sim st e).
      { induction os' as [|o os' IH]; cbn [srun]; intros st0 e0 vs0 S0 R0; [injection R0 as <- _; eauto|].
        destruct (sstep e0 o) as [[e2 v]|] eqn:E1; [|discriminate]. destruct (srun e2 os') as [[e3 vs']|] eqn:E2; [|discriminate].
        injection R0 as <- _. destruct (sim_step _ _ _ _ _ S0 E1) as (st1 & _ & S1). eauto. }
      destruct (G _ _ _ _ sim_init H) as (st & R & ND & _). cbn [sstep] in E. destruct (member e n) eqn:Em; [|discriminate].
      apply member_in in Em as (l & s1 & s2 & El); auto. eapply (r_out _ _ _ R); [exact El|]. rewrite in_app_iff. cbn; auto. }
    rewrite He, Ho, Hm. reflexivity.
  - intros l s Es. split; [apply A; cbn [sstep]; now rewrite Es|].
    rewrite Hl, find_edit in Es. destruct (find_list (lists e) l); [|discriminate]. injection Es as <-.
    unfold without. rewrite filter_In, Nat.eqb_refl. intros [_ X]. discriminate.
Qed.
Print Assumptions quick_list_excluded_is_nowhere.

(** Which list names and element names an operation mentions. *)
Definition names_list (o : qop) (l : nat) : bool :=
  match o with
  | QNewList a | QPushFront a _ | QPushBack a _ | QPopFront a | QPopBack a | QClear a
  | QFront a | QBack a | QEmpty a | QOne a | QEmptyOrOne a | QSize a | QIter a | QRIter a => l =? a
  | QMoveList a b | QMoveAssign a b | QSpliceFront a b | QSpliceBack a b => (l =? a) || (l =? b)
  | _ => false
  end.
Definition names_member (o : qop) (s : list nat) : bool :=
  match o with
  | QInsertAfter p _ | QInsertBefore p _ => mem_of p s
  | QExclude n | QSafeExclude n => mem_of n s
  | QMoveElem n o | QAssignElem n o => mem_of n s || mem_of o s
  | _ => false
  end.

Lemma find_edit_other f ls l s : find_list ls l = Some s -> f s = s -> find_list (edit f ls) l = find_list ls l.
Proof. intros H Hf. rewrite find_edit, H. cbn. congruence. Qed.
Lemma mem_of_out n s : mem_of n s = false -> ~ In n s.
Proof. intros H X. apply mem_of_in in X. congruence. Qed.

Lemma spec_local e o e1 v l s : sstep e o = Some (e1, v) -> find_list (lists e) l = Some s ->
  names_list o l = false -> names_member o s = false -> find_list (lists e1) l = find_list (lists e) l.
Proof.
  intros E El Hn Hm.
  destruct o; cbn [sstep names_list names_member] in *;
    repeat match type of E with
    | match find_list (lists e) ?a with _ => _ end = _ => destruct (find_list (lists e) a) eqn:?; try discriminate
    | match (match find_list (lists e) ?a with _ => _ end) with _ => _ end = _ => destruct (find_list (lists e) a) eqn:?; try discriminate
    | match elems e ?a with _ => _ end = _ => destruct (elems e a) eqn:?; try discriminate
    | (if ?c then _ else _) = _ => destruct c eqn:?; try discriminate
    | match ?c with _ => _ end = _ => destruct c eqn:?; try discriminate
    end;
    injection E as <- <-; cbn [lists with_lists with_elem find_list]; try reflexivity;
    rewrite ?find_set_other by lia; try reflexivity.
  all: try (eapply find_edit_other; [eassumption|];
     first [now apply after_id, mem_of_out | now apply before_id, mem_of_out | now apply without_id, mem_of_out | now apply replace_id, mem_of_out; lia | idtac]).
  - destruct (Nat.eqb_spec l0 l); [congruence|reflexivity].
  - destruct (Nat.eqb_spec l0 l); [congruence|]. reflexivity.
  - destruct (lose_lists l1 (with_lists e (set_list (lists e) l0 []))) as [-> _]. cbn. now apply find_set_other.
  - apply orb_false_iff in Hm as [Hm1 Hm2]. rewrite without_id by now apply mem_of_out. now apply replace_id, mem_of_out.
Qed.

(** No operation changes a list it does not mention, by its own name or by that of
    one of its elements. *)
Theorem quick_list_operations_are_local : forall os e vs o e1 v l s,
  srun sinit os = Some (e, vs) -> sstep e o = Some (e1, v) ->
  find_list (lists e) l = Some s -> names_list o l = false -> names_member o s = false ->
  qrun qinit (os ++ [QIter l]) = Ok (vs ++ [VList s]) /\
  qrun qinit (os ++ [o; QIter l]) = Ok (vs ++ [v; VList s]).
Proof.
  intros os e vs o e1 v l s H E El Hn Hm.
  assert (K : find_list (lists e1) l = Some s) by (rewrite <- El; eapply spec_local; eauto).
  split; [eapply run_then; [eauto|cbn [sstep]; now rewrite El]|].
  apply quick_list_refines_sequences with e1. rewrite srun_app, H. cbn [srun]. rewrite E. cbn [sstep]. rewrite K. reflexivity.
Qed.
Print Assumptions quick_list_operations_are_local.


Example quick_list_operations_are_local_case :
  let os := [QNewElem 1; QNewElem 2; QNewElem 3; QNewList 0; QNewList 1; QPushBack 0 1; QPushBack 0 2; QPushBack 1 3] in
  match srun sinit os with
  | Some (e, _) => find_list (lists e) 0 = Some [1; 2] /\ names_list (QMoveElem 4 3) 0 = false /\
                   names_member (QMoveElem 4 3) [1; 2] = false /\
                   option_map snd (sstep e (QMoveElem 4 3)) = Some VUnit
  | None => False
  end.
Proof. vm_compute. auto. Qed.

(** What the preconditions exclude.  clear() does not touch the elements: they still
    say they are in a list, and excluding one of them breaks the cleared list
    (QuickLink.h:65-66 warns about it). *)
Theorem quick_list_clear_refuted : exists os n l,
  qrun qinit (os ++ [QClear l; QIncluded n]) = Ok (map (fun _ => VUnit) os ++ [VUnit; VBool true]) /\
  qrun qinit (os ++ [QClear l; QSafeExclude n; QEmpty l]) = Ok (map (fun _ => VUnit) os ++ [VUnit; VUnit; VBool false]) /\
  qrun qinit (os ++ [QClear l; QSafeExclude n; QIter l]) = UB.
Proof.
  exists [QNewElem 1; QNewElem 2; QNewList 0; QPushBack 0 1; QPushBack 0 2], 1, 0.
  repeat split; vm_compute; reflexivity.
Qed.
Print Assumptions quick_list_clear_refuted.

(** Splicing a list with itself loses its elements. *)
Theorem quick_list_self_splice_refuted : exists os l s,
  qrun qinit (os ++ [QIter l]) = Ok (map (fun _ => VUnit) os ++ [VList s]) /\ s <> [] /\
  qrun qinit (os ++ [QSpliceBack l l; QIter l]) = Ok (map (fun _ => VUnit) os ++ [VUnit; VList []]).
Proof.
  exists [QNewElem 1; QNewElem 2; QNewList 0; QPushBack 0 1; QPushBack 0 2], 0, [1; 2].
  repeat split; try discriminate; vm_compute; reflexivity.
Qed.
Print Assumptions quick_list_self_splice_refuted.

(** Assigning a movable link to itself takes the element out of its list. *)
Theorem quick_link_self_move_refuted : exists os n l s,
  qrun qinit (os ++ [QIter l]) = Ok (map (fun _ => VUnit) os ++ [VList s]) /\ In n s /\
  qrun qinit (os ++ [QAssignElem n n; QIter l; QIncluded n]) = Ok (map (fun _ => VUnit) os ++ [VUnit; VList (without n s); VBool false]).
Proof.
  exists [QNewElem 1; QNewElem 2; QNewList 0; QPushBack 0 1; QPushBack 0 2], 1, 0, [1; 2].
  repeat split; cbn; auto.
Qed.
Print Assumptions quick_link_self_move_refuted.
