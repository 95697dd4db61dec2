(** GetSuccessor and GetPredecessor of vector_set, for every node of every set (C04). *)
From Verif Require Import Common VSetModel VSetProg VSetSpec VSetTree VSetRotate VSetInsert VSetLookup VSetList VSetOps VSetProofs VSetProps.
From Coq Require Import ZifyBool ZifyNat Sorted.

Section Neighbours.
Context {T : Type}.
Implicit Types (s : st T).

Lemma go_left_first s t : forall f C, sz t < f -> foc s t C -> t <> E -> go_left f (ptr t) s = Ok (s, hd_error (ino t)).
Proof.
  intros f C Hf F Hne. destruct (go_left_ok s t f C Hf F Hne) as (c & y & r & Cr & E1 & E2 & E3). rewrite E1, E2, ino_plug, E3. reflexivity.
Qed.
Lemma climb_right_ok s C : forall f t a, length C < f -> foc s t C -> ptr t = Some a ->
  climb_while_right f (Some a) (up C) s = Ok (s, hd_error (cpost C)).
Proof.
  induction C as [|[d c p sb] C IH]; intros f t a Hf F Ht; (destruct f as [|f]; [simpl in Hf; lia|]); cbn [climb_while_right up is_null fa].
  - reflexivity.
  - destruct t as [|tc tl ta tr]; [discriminate|]. simpl in Ht. injection Ht as ->.
    pose proof (foc_frame _ _ _ _ _ _ _ F) as (B1 & B2 & B3 & B4 & B5).
    rewrite bind_rd by exact B1. destruct d; cbn [child opp] in *.
    + rewrite B4, ptr_eqb_neq.
      * reflexivity.
      * intros HH. symmetry in HH. revert HH. apply ptr_neq_tm.
        pose proof (fnd _ _ _ F a) as Hn. simpl in Hn. rewrite Nat.eqb_refl in Hn. lia.
    + rewrite B3. cbn [ptr]. rewrite ptr_eqb_refl. rewrite bind_rd by exact B1. rewrite B2.
      apply (proj2 (foc_zip _ _ _ _ _ _ _)) in F. apply (IH f _ p) in F; [|simpl in Hf; lia|apply ptr_mkN]. rewrite F. reflexivity.
Qed.
Lemma get_successor_ok s c l a r C : foc s (N c l a r) C -> get_successor (Some a) s = Ok (s, hd_error (ino r ++ cpost C)).
Proof.
  intros F. pose proof (foc_length _ _ _ F) as Hlen. simpl in Hlen.
  pose proof (foc_node s L _ _ _ _ _ F) as (A1 & A2 & A3 & A4 & A5). cbn [child opp] in *.
  unfold get_successor. rewrite bind_rd by exact A1. rewrite A4. destruct r as [|cr rl ra rr]; cbn [ptr is_null].
  - rewrite bind_rd by exact A1. rewrite A2. simpl. unfold fuelled. eapply climb_right_ok; [|exact F|reflexivity]. lia.
  - unfold fuelled. change (Some ra) with (ptr (N cr rl ra rr)). rewrite (go_left_first s _ _ (Fr R c a l :: C)).
    + rewrite hd_app. destruct (hd_error (ino (N cr rl ra rr))) eqn:Hl; auto. simpl in Hl. destruct (ino rl); discriminate.
    + simpl in *. lia.
    + apply (proj1 (foc_zip s R c _ a l C)). exact F.
    + discriminate.
Qed.
End Neighbours.

(** Each node has the next one in the order as successor and the one before as predecessor; the last has no successor and the first no
    predecessor. *)
Theorem vset_neighbours : forall (T K : Type) (lt : T -> T -> bool) (ltKT : K -> T -> bool) (ltTK : T -> K -> bool),
  strict_weak lt -> keys_ok lt ltKT ltTK -> forall os i, legal lt ltKT ltTK os i ->
  exists e vs s nodes, vrun lt ltKT ltTK vinit os = Ok (e, vs) /\ e i = Some s /\
  (forall n, n < length nodes -> answer lt ltKT ltTK os (VFindByIndex i n) (BIter (nth_error nodes n))) /\ answer lt ltKT ltTK os (VSize i) (BNat (length nodes)) /\
  forall n h, nth_error nodes n = Some h ->
    get_successor (Some h) s = Ok (s, nth_error nodes (S n)) /\ get_predecessor (Some h) s = Ok (s, match n with 0 => None | S m => nth_error nodes m end).
Proof.
  intros T K lt ltKT ltTK SW KO os i (se & vs & [n0 l] & Hr & Hi).
  destruct (vrun_sim lt ltKT ltTK SW KO os vinit sinit se vs (envrel_init lt) Hr) as (e & He & Hrel).
  destruct (envrel_some _ _ _ _ _ Hrel Hi) as (s & Es & t & RT). destruct RT as [CR RI RF RV RS]. cbn [fst snd] in *.
  exists e, vs, s, (map fst l). split; [exact He|]. split; [exact Es|]. split; [|split].
  - intros n Hn. apply (answer_spec lt ltKT ltTK SW KO os se vs _ se _ Hr); [reflexivity|]. cbn [sstep]. rewrite Hi. cbn [snd]. rewrite nth_error_map. destruct (nth_error l n) as [[h v]|]; reflexivity.
  - apply (answer_spec lt ltKT ltTK SW KO os se vs _ se _ Hr); [reflexivity|]. cbn [sstep]. rewrite Hi. cbn [snd]. now rewrite map_length.
  - intros n h Hn. rewrite <- RI in *. destruct CR as [F R0 K0]. assert (Hin : In h (ino t)) by (eapply nth_error_In; eauto).
    pose proof (foc_nodup _ _ F) as ND. destruct (locate t h Hin) as (c & lt' & rt & C & ->). apply foc_app in F. cbn [app] in F. rewrite app_nil_r in F.
    rewrite ino_plug in *. cbn [ino] in *. set (p := cpre C ++ ino lt') in *. set (q := ino rt ++ cpost C) in *.
    assert (EQ : cpre C ++ (ino lt' ++ h :: ino rt) ++ cpost C = p ++ h :: q) by (unfold p, q; now rewrite <- !app_assoc). rewrite EQ in *.
    assert (n = length p) as ->.
    { destruct (nth_error_split _ _ Hn) as (a & b & Eab & <-). assert (NA : p = a /\ q = b) by (eapply nodup_split; eauto). destruct NA as [-> _]. reflexivity. }
    split.
    + rewrite (get_successor_ok _ _ _ _ _ _ F). fold q. rewrite nth_error_app2 by lia. replace (S (length p) - length p) with 1 by lia. now destruct q.
    + rewrite (get_predecessor_ok _ _ _ _ _ _ F). fold p. destruct (rev p) as [|z r] eqn:ER; unfold lasto; rewrite ER; cbn [hd_error].
      * assert (p = []) as -> by (rewrite <- (rev_involutive p), ER; reflexivity). reflexivity.
      * assert (p = rev r ++ [z]) as -> by (rewrite <- (rev_involutive p), ER; reflexivity). rewrite app_length. cbn [length]. rewrite Nat.add_1_r. rewrite <- app_assoc. cbn [app]. now rewrite nth_error_app2, Nat.sub_diag by lia.
Qed.

(** Five elements: the successors lead from the first node to the last, and from there to nowhere; the second step climbs. *)
Example neighbours_example : match vrun Nat.ltb Nat.ltb Nat.ltb vinit (VNew 0 :: map (VInsert 0) [40; 10; 20; 50; 30]) with
  | Ok (e, _) => match e 0 with
                 | Some s => map (fun h => match get_successor (Some h) s with Ok (_, y) => y | _ => None end) [1; 2; 4; 0; 3] = [Some 2; Some 4; Some 0; Some 3; None] /\
                             map (fun h => match get_predecessor (Some h) s with Ok (_, y) => y | _ => None end) [1; 2; 4; 0; 3] = [None; Some 1; Some 2; Some 4; Some 0]
                 | None => False end
  | _ => False
  end.
Proof. vm_compute. auto. Qed.
