(** Notifications with observers that throw or return false (C118). *)
From Verif Require Import Common QListModel QListSpec QListProofs QListRel QListSim ObserverModel ObserverSpec ObserverProofs NotifyThrowModel NotifyThrowSpec.
From Coq Require Import ZifyBool ZifyNat.

Scheme did_mind := Minimality for did Sort Prop
  with told_mind := Minimality for told Sort Prop.
Combined Scheme throw_mind from did_mind, told_mind.

(** ** The machine *)
Section Proofs.
Context (cb : list call -> nat -> nat -> list act).
Lemma perform_S f st log acts : perform cb (S f) st log acts =
    match acts with
    | [] => Done st log Next
    | AThrow :: _ => Done st log Thrown
    | AReturn b :: _ => Done st log (Returned b)
    | AOp o :: r => of_res (qstep st o) (fun p => perform cb f (fst p) log r)
    | ANotify l :: r =>
        of_res (fnext (fst st) (Some (Nl l))) (fun i => abind (walk cb f false st log l i) (fun st1 log1 o =>
          match o with Thrown => Done st1 log1 Thrown | _ => perform cb f st1 log1 r end))
    | AWhile l no :: r =>
        of_res (fnext (fst st) (Some (Nl l))) (fun i => abind (walk cb f true st log l i) (fun st1 log1 o =>
          match o with
          | Thrown => Done st1 log1 Thrown
          | Returned false => perform cb f st1 log1 (no ++ r)
          | _ => perform cb f st1 log1 r
          end))
    | ATry body handler :: r =>
        abind (perform cb f st log body) (fun st1 log1 o =>
          match o with
          | Thrown => perform cb f st1 log1 (handler ++ r)
          | Next => perform cb f st1 log1 r
          | Returned b => Done st1 log1 (Returned b)
          end)
    end.
Proof. reflexivity. Qed.
Lemma walk_S f w st log l i : walk cb (S f) w st log l i =
    if p_is i (Nl l) then Done st log (Returned true)
    else
      of_res (as_elem i) (fun n => of_res (fnext (fst st) i) (fun i1 =>
        abind (perform cb f st (log ++ [(l, n)]) (cb log l n)) (fun st1 log1 o =>
          match o with
          | Thrown => Done st1 log1 Thrown
          | Returned false => if w then Done st1 log1 (Returned false) else walk cb f w st1 log1 l i1
          | _ => walk cb f w st1 log1 l i1
          end))).
Proof. reflexivity. Qed.
Lemma fuel_mono f : forall g, f <= g ->
  (forall st log acts, perform cb f st log acts <> Running -> perform cb g st log acts = perform cb f st log acts) /\
  (forall w st log l i, walk cb f w st log l i <> Running -> walk cb g w st log l i = walk cb f w st log l i).
Proof.
  induction f as [|f IH]; intros g G; [split; intros; cbn in *; congruence|]. destruct g as [|g]; [lia|]. destruct (IH g ltac:(lia)) as [P W]. clear IH G. split.
  - intros st log [|a r]; rewrite !perform_S; [reflexivity|]. destruct a; try reflexivity.
    + destruct (qstep st o) as [p| |]; cbn [of_res]; [apply P|reflexivity..].
    + destruct (fnext (fst st) (Some (Nl l))) as [i| |]; cbn [of_res]; [|reflexivity..]. destruct (walk cb f false st log l i) eqn:E; cbn [abind]; [intros X; now destruct X| |]; rewrite W by (rewrite E; discriminate); rewrite E; cbn [abind]; [reflexivity|]. destruct o; auto.
    + destruct (fnext (fst st) (Some (Nl l))) as [i| |]; cbn [of_res]; [|reflexivity..]. destruct (walk cb f true st log l i) eqn:E; cbn [abind]; [intros X; now destruct X| |]; rewrite W by (rewrite E; discriminate); rewrite E; cbn [abind]; [reflexivity|]. destruct o as [|[|]|]; auto.
    + destruct (perform cb f st log body) eqn:E; cbn [abind]; [intros X; now destruct X| |]; rewrite P by (rewrite E; discriminate); rewrite E; cbn [abind]; [reflexivity|]. destruct o; auto.
  - intros w st log l i. rewrite !walk_S. destruct (p_is i (Nl l)); [reflexivity|]. destruct (as_elem i) as [n| |]; cbn [of_res]; [|reflexivity..]. destruct (fnext (fst st) i) as [i1| |]; cbn [of_res]; [|reflexivity..].
    destruct (perform cb f st (log ++ [(l, n)]) (cb log l n)) eqn:E; cbn [abind]; [intros X; now destruct X| |]; rewrite P by (rewrite E; discriminate); rewrite E; cbn [abind]; [reflexivity|]. destruct o as [|[|]|]; auto. destruct w; auto.
Qed.
Lemma perform_at f g st log acts st' log' o : perform cb f st log acts = Done st' log' o -> f <= g -> perform cb g st log acts = Done st' log' o.
Proof. intros E G. destruct (fuel_mono f g G) as [P _]. rewrite P; [exact E|]. rewrite E. discriminate. Qed.
Lemma walk_at f g w st log l i st' log' o : walk cb f w st log l i = Done st' log' o -> f <= g -> walk cb g w st log l i = Done st' log' o.
Proof. intros E G. destruct (fuel_mono f g G) as [_ P]. rewrite P; [exact E|]. rewrite E. discriminate. Qed.

Lemma throw_ok :
  (forall e log acts e' log' x, did cb e log acts e' log' x -> forall st, Sim st e -> exists k st', perform cb k st log acts = Done st' log' x /\ Sim st' e') /\
  (forall w e log l s e' log' v, told cb w e log l s e' log' v -> forall st pre, Sim st e -> find_list (lists e) l = Some (pre ++ s) ->
     exists k st', walk cb k w st log l (cursor l (hd_error s)) = Done st' log' v /\ Sim st' e').
Proof.
  assert (N : forall st e l n pre rest, Sim st e -> find_list (lists e) l = Some (pre ++ n :: rest) -> fnext (fst st) (Some (El n)) = Ok (cursor l (hd_error rest))).
  { intros st e l n pre rest Si E. pose proof Si as (R & _). pose proof (r_nd _ _ _ R _ _ E) as ND. rewrite (next_ok _ _ _ _ _ Si E) by (rewrite in_app_iff; cbn; auto).
    now rewrite next_of_mid by (apply NoDup_remove in ND as [_ ND]; rewrite in_app_iff in ND; tauto). }
  apply throw_mind.
  - intros e log st Si. now exists 1, st.
  - intros e log r st Si. now exists 1, st.
  - intros e log b r st Si. now exists 1, st.
  - intros e log o r e1 v e' log' x E _ IH st Si. destruct (sim_step _ _ _ _ _ Si E) as (st1 & Q & S1). destruct (IH st1 S1) as (k & st' & P & S'). exists (S k), st'. split; auto. rewrite perform_S. rewrite Q. exact P.
  - intros e log l r s e1 log1 b e' log' x E _ IH1 _ IH2 st Si. destruct (IH1 st [] Si E) as (k1 & st1 & W & S1). destruct (IH2 st1 S1) as (k2 & st' & P & S').
    exists (S (k1 + k2)), st'. split; auto. rewrite perform_S. rewrite (begin_ok _ _ _ _ Si E). cbn [of_res]. rewrite (walk_at _ _ _ _ _ _ _ _ _ _ W) by lia. cbn [abind]. apply (perform_at _ _ _ _ _ _ _ _ P). lia.
  - intros e log l r s e1 log1 E _ IH1 st Si. destruct (IH1 st [] Si E) as (k1 & st1 & W & S1). exists (S k1), st1. split; auto. rewrite perform_S. rewrite (begin_ok _ _ _ _ Si E). cbn [of_res]. rewrite W. reflexivity.
  - intros e log l no r s e1 log1 b e' log' x E _ IH1 _ IH2 st Si. destruct (IH1 st [] Si E) as (k1 & st1 & W & S1). destruct (IH2 st1 S1) as (k2 & st' & P & S').
    exists (S (k1 + k2)), st'. split; auto. rewrite perform_S. rewrite (begin_ok _ _ _ _ Si E). cbn [of_res]. rewrite (walk_at _ _ _ _ _ _ _ _ _ _ W) by lia. cbn [abind]. destruct b; apply (perform_at _ _ _ _ _ _ _ _ P); lia.
  - intros e log l no r s e1 log1 E _ IH1 st Si. destruct (IH1 st [] Si E) as (k1 & st1 & W & S1). exists (S k1), st1. split; auto. rewrite perform_S. rewrite (begin_ok _ _ _ _ Si E). cbn [of_res]. rewrite W. reflexivity.
  - intros e log body h r e1 log1 e' log' x _ IH1 _ IH2 st Si. destruct (IH1 st Si) as (k1 & st1 & P1 & S1). destruct (IH2 st1 S1) as (k2 & st' & P & S').
    exists (S (k1 + k2)), st'. split; auto. rewrite perform_S. rewrite (perform_at _ _ _ _ _ _ _ _ P1) by lia. cbn [abind]. apply (perform_at _ _ _ _ _ _ _ _ P); lia.
  - intros e log body h r e1 log1 b _ IH1 st Si. destruct (IH1 st Si) as (k1 & st1 & P1 & S1). exists (S k1), st1. split; auto. rewrite perform_S. rewrite P1. reflexivity.
  - intros e log body h r e1 log1 e' log' x _ IH1 _ IH2 st Si. destruct (IH1 st Si) as (k1 & st1 & P1 & S1). destruct (IH2 st1 S1) as (k2 & st' & P & S').
    exists (S (k1 + k2)), st'. split; auto. rewrite perform_S. rewrite (perform_at _ _ _ _ _ _ _ _ P1) by lia. cbn [abind]. apply (perform_at _ _ _ _ _ _ _ _ P); lia.
  - intros w e log l st pre Si E. exists 1, st. split; auto. rewrite walk_S. cbn [hd_error cursor p_is addr_eqb]. now rewrite Nat.eqb_refl.
  - intros w e log l n rest e1 log1 _ IH1 st pre Si E. destruct (IH1 st Si) as (k1 & st1 & P1 & S1). exists (S k1), st1. split; auto.
    change (cursor l (hd_error (n :: rest))) with (Some (El n)). rewrite walk_S. cbn [p_is addr_eqb as_elem of_res]. rewrite (N _ _ _ _ _ _ Si E). cbn [of_res]. rewrite P1. reflexivity.
  - intros e log l n rest e1 log1 _ IH1 st pre Si E. destruct (IH1 st Si) as (k1 & st1 & P1 & S1). exists (S k1), st1. split; auto.
    change (cursor l (hd_error (n :: rest))) with (Some (El n)). rewrite walk_S. cbn [p_is addr_eqb as_elem of_res]. rewrite (N _ _ _ _ _ _ Si E). cbn [of_res]. rewrite P1. reflexivity.
  - intros w e log l n rest e1 log1 x pre1 e' log' v _ IH1 X1 X2 E1 _ IH2 st pre Si E. destruct (IH1 st Si) as (k1 & st1 & P1 & S1). destruct (IH2 st1 pre1 S1 E1) as (k2 & st' & P & S').
    exists (S (k1 + k2)), st'. split; auto. change (cursor l (hd_error (n :: rest))) with (Some (El n)). rewrite walk_S. cbn [p_is addr_eqb as_elem of_res]. rewrite (N _ _ _ _ _ _ Si E). cbn [of_res].
    rewrite (perform_at _ _ _ _ _ _ _ _ P1) by lia. cbn [abind]. apply (walk_at _ (k1 + k2)) in P; [|lia]. destruct x as [|[|]|]; auto; [|congruence]. destruct w; [destruct X2; auto|exact P].
Qed.
End Proofs.
Lemma sim_iterate st e l s : Sim st e -> find_list (lists e) l = Some s -> iterate (Datatypes.S (snd st)) (fst st) l = Ok s.
Proof. intros (R & ND & Cn & K) E. apply iterate_ok; [apply (r_circ _ _ _ R); exact E|]. rewrite K. eapply size_bound; [exact R|exact Cn|exact E]. Qed.

(** The statements end in this way, whatever the number of steps that is given to them, and the lists are these. *)
Definition comes_to (cb : list call -> nat -> nat -> list act) (st : qstate) (acts : list act) (log : list call) (o : out) (subs : nat -> option (list nat)) : Prop :=
  exists st', (exists k, forall f, k <= f -> perform cb f st [] acts = Done st' log o) /\ (forall f, perform cb f st [] acts = Running \/ perform cb f st [] acts = Done st' log o) /\
    forall l s, subs l = Some s -> iterate (Datatypes.S (snd st')) (fst st') l = Ok s.

(** C118. *)
Theorem nthrow_nested cb : forall os e vs st acts e' log o,
  srun sinit os = Some (e, vs) -> qexec qinit os = Ok st -> did cb e [] acts e' log o -> comes_to cb st acts log o (find_list (lists e')).
Proof.
  intros os e vs st acts e' log o Hr Hx N. destruct (sim_reach _ _ _ Hr) as (st0 & Hx' & Si). rewrite Hx in Hx'. injection Hx' as <-.
  destruct (throw_ok cb) as [H _]. destruct (H _ _ _ _ _ _ N st Si) as (k & st' & P & S'). exists st'. split; [|split].
  - exists k. intros f F. eapply perform_at; eauto.
  - intros f. destruct (perform cb f st [] acts) as [| |st1 log1 o1] eqn:E; auto; right.
    + assert (X := proj1 (fuel_mono cb f (f + k) ltac:(lia)) st [] acts). rewrite E in X. rewrite (perform_at _ _ (f + k) _ _ _ _ _ _ P) in X by lia. symmetry. apply X. discriminate.
    + apply (perform_at _ _ (f + k)) in E; [|lia]. rewrite (perform_at _ _ (f + k) _ _ _ _ _ _ P) in E by lia. congruence.
  - intros l s E. eapply sim_iterate; eauto.
Qed.

(** ** Cascades *)
Section Cascade.
Context (leave : list call -> nat -> bool) (targets : list call -> nat -> nat -> list (nat * mode)) (fin : list call -> nat -> nat -> out) (level : nat -> nat).
Context (D : nat -> Prop) (T : forall log l n t m, In (t, m) (targets log l n) -> level t < level l /\ D t).
Local Notation cb := (forwarding leave targets fin).
Definition good (e : qspec) (subs : nat -> list nat) : Prop :=
  (exists st, Sim st e) /\ (forall l s, find_list (lists e) l = Some s -> subs l = s) /\ forall l, D l -> find_list (lists e) l <> None.
Lemma good_find e subs l : good e subs -> D l -> find_list (lists e) l = Some (subs l).
Proof. intros (_ & M & DD) Dl. specialize (DD l Dl). destruct (find_list (lists e) l) as [s|] eqn:E; [|tauto]. now rewrite (M _ _ E). Qed.
Lemma leave_one e subs l pre n rest : good e subs -> find_list (lists e) l = Some (pre ++ n :: rest) ->
  exists e1 v, sstep e (QExclude n) = Some (e1, v) /\ good e1 (fun l' => if l' =? l then without n (subs l) else subs l') /\ find_list (lists e1) l = Some (pre ++ rest).
Proof.
  intros ((st & Si) & M & DD) E. pose proof Si as (R & _). pose proof (r_nd _ _ _ R _ _ E) as ND.
  assert (N1 : ~ In n pre /\ ~ In n rest) by (apply NoDup_remove in ND as [_ ND]; rewrite in_app_iff in ND; tauto).
  assert (Hm : member e n = true). { unfold member. apply existsb_exists. exists (l, pre ++ n :: rest). split; [now apply find_in|]. apply mem_of_in. cbn. rewrite in_app_iff. cbn; auto. }
  assert (Es : sstep e (QExclude n) = Some (with_lists e (edit (without n) (lists e)), VUnit)) by (cbn [sstep]; rewrite Hm; reflexivity).
  assert (Ed : forall l', find_list (edit (without n) (lists e)) l' = updv (vw (lists e)) l (pre ++ rest) l').
  { apply (edit_one _ _ (lists e) l pre n rest (without n) (pre ++ rest) R E); [intros; now apply without_mid|intros; now apply without_id]. }
  exists (with_lists e (edit (without n) (lists e))), VUnit. split; auto. destruct (sim_step _ _ _ _ _ Si Es) as (st1 & _ & S1). split; [|cbn [lists with_lists]; rewrite Ed; apply updv_eq].
  split; [eauto|]. split.
  - intros l' s'. cbn [lists with_lists]. rewrite Ed. destruct (Nat.eqb_spec l' l) as [->|Nl].
    + rewrite updv_eq. intros H. injection H as <-. rewrite (M _ _ E). now apply without_mid.
    + rewrite updv_neq by auto. intros H. now apply M.
  - intros l' Dl. cbn [lists with_lists]. rewrite Ed. destruct (Nat.eq_dec l' l) as [->|Nl]; [rewrite updv_eq; discriminate|]. rewrite updv_neq by auto. now apply DD.
Qed.

Lemma cascade_ok : forall d w l e subs log subs' log' v, level l < d -> D l -> good e subs -> cascade leave targets fin d w (subs, log) l = ((subs', log'), v) ->
  exists e', told cb w e log l (subs l) e' log' v /\ good e' subs' /\ (forall l', level l < level l' -> subs' l' = subs l') /\ v <> Next.
Proof.
  induction d as [|d IH]; intros w l e subs log subs' log' v Hd Dl G; [lia|]. cbn [cascade fst].
  (* the targets of one observer *)
  assert (FW : forall ts x e subs log subs' log' v, (forall t m, In (t, m) ts -> level t < level l /\ D t) -> good e subs -> forward (cascade leave targets fin d) ts x (subs, log) = ((subs', log'), v) ->
    exists e', did cb e log (map sends ts ++ ends x) e' log' v /\ good e' subs' /\ forall l', level l <= level l' -> subs' l' = subs l').
  { clear e subs log subs' log' v G. induction ts as [|[t m] ts IHt]; intros x e subs log subs' log' v Ht G; cbn [forward map app].
    - intros X. injection X as <- <- <-. exists e. split; [|auto]. destruct x; constructor.
    - destruct (Ht t m (or_introl eq_refl)) as [Lt Dt]. assert (Ht' : forall t m, In (t, m) ts -> level t < level l /\ D t) by (intros; eapply Ht; right; eauto).
      destruct (cascade leave targets fin d match m with Asking => true | _ => false end (subs, log) t) as [[subs1 log1] v1] eqn:C.
      destruct (IH _ t e subs log subs1 log1 v1 ltac:(lia) Dt G C) as (e1 & T1 & G1 & F1 & V1). pose proof (good_find _ _ _ G Dt) as E.
      assert (F1' : forall l', level l <= level l' -> subs1 l' = subs l') by (intros l' L; apply F1; lia).
      assert (GO : forward (cascade leave targets fin d) ts x (subs1, log1) = ((subs', log'), v) -> exists e', did cb e1 log1 (map sends ts ++ ends x) e' log' v /\ good e' subs' /\ forall l', level l <= level l' -> subs' l' = subs l').
      { intros X. destruct (IHt x e1 subs1 log1 subs' log' v Ht' G1 X) as (e' & D' & G' & F'). exists e'. split; auto. split; auto. intros l' L. rewrite F' by auto. auto. }
      assert (ST : ((subs1, log1), v1) = ((subs', log'), v) -> did cb e log (sends (t, m) :: map sends ts ++ ends x) e1 log1 v1 -> exists e', did cb e log (sends (t, m) :: map sends ts ++ ends x) e' log' v /\ good e' subs' /\ forall l', level l <= level l' -> subs' l' = subs l').
      { intros X Y. injection X as <- <- <-. exists e1. auto. }
      unfold sends in *. cbn [fst snd] in *. destruct v1 as [|b|]; [congruence| |].
      + destruct m; cbn [snd fst].
        * intros X. assert (X' : forward (cascade leave targets fin d) ts x (subs1, log1) = (subs', log', v)) by (destruct b; exact X). destruct (GO X') as (e' & D' & R'). exists e'. split; auto. eapply D_notify; eauto.
        * intros X. assert (X' : forward (cascade leave targets fin d) ts x (subs1, log1) = (subs', log', v)) by (destruct b; exact X). destruct (GO X') as (e' & D' & R'). exists e'. split; auto. eapply D_try; [|exact D']. eapply D_notify; eauto. constructor.
        * destruct b; intros X.
          -- destruct (GO X) as (e' & D' & R'). exists e'. split; auto. eapply (D_while cb _ _ _ _ _ _ _ _ true); eauto.
          -- apply (ST X). eapply (D_while cb _ _ _ _ _ _ _ _ false); eauto. cbn. constructor.
      + destruct m; cbn [snd fst]; intros X.
        * apply (ST X). eapply D_notify_throw; eauto.
        * destruct (GO X) as (e' & D' & R'). exists e'. split; auto. eapply D_catch; [eapply D_notify_throw; eauto|]. exact D'.
        * apply (ST X). eapply D_while_throw; eauto. }
  (* the observers *)
  assert (CS : forall s pre e subs log subs' log' v, find_list (lists e) l = Some (pre ++ s) -> good e subs -> each leave targets fin (cascade leave targets fin d) w l s (subs, log) = ((subs', log'), v) ->
    exists e', told cb w e log l s e' log' v /\ good e' subs' /\ (forall l', level l < level l' -> subs' l' = subs l') /\ v <> Next).
  { clear e subs log subs' log' v G. induction s as [|n s IHs]; intros pre e subs log subs' log' v E G; cbn [each].
    - intros X. injection X as <- <- <-. exists e. split; [constructor|]. split; auto. split; [auto|discriminate].
    - set (subs1 := if leave log n then fun l' => if l' =? l then without n (subs l) else subs l' else subs) in *.
      destruct (forward (cascade leave targets fin d) (targets log l n) (fin log l n) (subs1, log ++ [(l, n)])) as [[subs2 log2] x] eqn:FE.
      assert (H1 : exists e1 pre1, good e1 subs1 /\ find_list (lists e1) l = Some (pre1 ++ s) /\ forall r e' log' x, did cb e1 (log ++ [(l, n)]) r e' log' x -> did cb e (log ++ [(l, n)]) ((if leave log n then [AOp (QExclude n)] else []) ++ r) e' log' x).
      { unfold subs1. destruct (leave log n).
        - destruct (leave_one _ _ _ _ _ _ G E) as (e1 & v1 & S1 & G1 & E1). exists e1, pre. split; auto. split; auto. intros r e' lg x' Hd'. cbn [app]. econstructor; eauto.
        - exists e, (pre ++ [n]). split; auto. split; [now rewrite <- app_assoc|]. auto. }
      destruct H1 as (e1 & pre1 & G1 & E1 & K1). destruct (FW (targets log l n) (fin log l n) e1 subs1 (log ++ [(l, n)]) subs2 log2 x) as (e2 & D2 & G2 & F2); auto. { intros t m X. eapply T; eauto. }
      apply K1 in D2. change (did cb e (log ++ [(l, n)]) (cb log l n) e2 log2 x) in D2.
      assert (E2 : find_list (lists e2) l = Some (pre1 ++ s)). { rewrite (good_find _ _ _ G2 Dl), (F2 l) by lia. destruct G1 as (_ & M1 & _). now rewrite (M1 _ _ E1). }
      assert (FR : forall l', level l < level l' -> subs2 l' = subs l'). { intros l' L. rewrite F2 by lia. unfold subs1. destruct (leave log n); [|reflexivity]. destruct (Nat.eqb_spec l' l); [subst; lia|reflexivity]. }
      assert (GO : x <> Thrown -> (w = true -> x <> Returned false) -> each leave targets fin (cascade leave targets fin d) w l s (subs2, log2) = ((subs', log'), v) -> exists e', told cb w e log l (n :: s) e' log' v /\ good e' subs' /\ (forall l', level l < level l' -> subs' l' = subs l') /\ v <> Next).
      { intros X1 X2 X. destruct (IHs pre1 e2 subs2 log2 subs' log' v E2 G2 X) as (e' & T' & G' & F' & V'). exists e'. split; [eapply T_next; eauto|]. split; auto. split; auto. intros l' L. rewrite F' by auto. auto. }
      destruct x as [|[|]|].
      + apply GO; congruence.
      + apply GO; congruence.
      + destruct w; [|apply GO; congruence]. intros X. injection X as <- <- <-. exists e2. split; [now apply T_false|]. split; auto. split; [auto|discriminate].
      + intros X. injection X as <- <- <-. exists e2. split; [now apply T_throw|]. split; auto. split; [auto|discriminate]. }
  apply (CS (subs l) [] e subs log subs' log' v); auto. apply good_find; auto.
Qed.
End Cascade.

(** Observers that may leave, forward to lower levels and then return or throw: the calls, the result and the observers that stay
    are those of [cascade], for any number of levels. *)
Theorem nthrow_cascade : forall leave targets fin level os e vs st l,
  srun sinit os = Some (e, vs) -> qexec qinit os = Ok st -> find_list (lists e) l <> None ->
  (forall log l n t m, In (t, m) (targets log l n) -> level t < level l /\ find_list (lists e) t <> None) ->
  let subs l := match find_list (lists e) l with Some s => s | None => [] end in
  let seen subs' l := match find_list (lists e) l with Some _ => Some (subs' l) | None => None end in
  (let '((subs', log), v) := cascade leave targets fin (Datatypes.S (level l)) false (subs, []) l in
   comes_to (forwarding leave targets fin) st [ANotify l] log (match v with Thrown => Thrown | _ => Next end) (seen subs')) /\
  (let '((subs', log), v) := cascade leave targets fin (Datatypes.S (level l)) true (subs, []) l in
   comes_to (forwarding leave targets fin) st [AWhile l [AReturn false]; AReturn true] log v (seen subs')).
Proof.
  intros leave targets fin level os e vs st l Hr Hx Hl T subs seen. destruct (sim_reach _ _ _ Hr) as (st0 & Hx' & Si). rewrite Hx in Hx'. injection Hx' as <-.
  set (D := fun l => find_list (lists e) l <> None). assert (G : good D e subs).
  { split; [eauto|]. split; [|auto]. intros l0 s0 E0. unfold subs. now rewrite E0. }
  assert (H : forall w, let '((subs', log), v) := cascade leave targets fin (Datatypes.S (level l)) w (subs, []) l in
    exists e', told (forwarding leave targets fin) w e [] l (subs l) e' log v /\ (forall l0 s0, seen subs' l0 = Some s0 -> find_list (lists e') l0 = Some s0) /\ v <> Next).
  { intros w. destruct (cascade leave targets fin (Datatypes.S (level l)) w (subs, []) l) as [[subs' log] v] eqn:C.
    destruct (cascade_ok leave targets fin level D T (Datatypes.S (level l)) w l e subs [] subs' log v ltac:(lia) Hl G C) as (e' & N & G' & _ & V). exists e'. split; auto. split; auto.
    intros l0 s0. unfold seen. destruct (find_list (lists e) l0) as [s1|] eqn:E0; [|discriminate]. intros X. injection X as <-. apply (good_find D); auto. unfold D. congruence. }
  pose proof (good_find D e subs l G Hl) as E. split.
  - specialize (H false). destruct (cascade leave targets fin (Datatypes.S (level l)) false (subs, []) l) as [[subs' log] v]. destruct H as (e' & N & SE & V).
    assert (DD : did (forwarding leave targets fin) e [] [ANotify l] e' log match v with Thrown => Thrown | _ => Next end).
    { destruct v; [congruence| |]; [eapply D_notify; eauto; constructor|eapply D_notify_throw; eauto]. }
    destruct (nthrow_nested _ _ _ _ _ _ _ _ _ Hr Hx DD) as (st' & A & B & C). exists st'. split; [exact A|]. split; [exact B|]. intros l0 s0 X. apply C. auto.
  - specialize (H true). destruct (cascade leave targets fin (Datatypes.S (level l)) true (subs, []) l) as [[subs' log] v]. destruct H as (e' & N & SE & V).
    assert (DD : did (forwarding leave targets fin) e [] [AWhile l [AReturn false]; AReturn true] e' log v).
    { destruct v as [|[|]|]; [congruence| | |]; [eapply (D_while _ _ _ _ _ _ _ _ _ true); eauto; constructor|eapply (D_while _ _ _ _ _ _ _ _ _ false); eauto; constructor|eapply D_while_throw; eauto]. }
    destruct (nthrow_nested _ _ _ _ _ _ _ _ _ Hr Hx DD) as (st' & A & B & C). exists st'. split; [exact A|]. split; [exact B|]. intros l0 s0 X. apply C. auto.
Qed.

(** ** Observers that do nothing but return or throw *)
Section Passive.
Context (fin : nat -> out).
Local Notation cb := (fun (_ : list call) (_ n : nat) => ends (fin n)).
Lemma ends_did e log x : did cb e log (ends x) e log x.
Proof. destruct x; constructor. Qed.
Lemma passive_told w e l : forall s pre log, find_list (lists e) l = Some (pre ++ s) ->
  let stop n := throws (fin n) || w && says_no (fin n) in
  told cb w e log l s e (log ++ map (pair l) (upto stop s)) (match find stop s with Some n => fin n | None => Returned true end).
Proof.
  induction s as [|n s IH]; intros pre log E stop; cbn [upto find map].
  - rewrite app_nil_r. constructor.
  - destruct (stop n) eqn:S1.
    + unfold stop in S1. pose proof (ends_did e (log ++ [(l, n)]) (fin n)) as DD. destruct (fin n) as [|[|]|] eqn:F; cbn in S1; destruct w; try discriminate.
      * apply T_false. rewrite F. exact DD.
      * apply T_throw. rewrite F. exact DD.
      * apply T_throw. rewrite F. exact DD.
    + cbn [map]. specialize (IH (pre ++ [n]) (log ++ [(l, n)])). rewrite <- app_assoc in IH. specialize (IH E). cbn zeta in IH. fold stop in IH. rewrite <- app_assoc in IH. cbn [app] in IH.
      eapply T_next; [apply ends_did| | |rewrite <- app_assoc with (n := s) (m := [n]) in *; exact E|exact IH]; unfold stop in S1; destruct (fin n) as [|[|]|]; cbn in S1; try discriminate; destruct w; try discriminate.
Qed.
End Passive.
Lemma repeat_S {A} (x : A) k : repeat x (S k) = x :: repeat x k.
Proof. reflexivity. Qed.
(** Notify calls up to the first that throws; NotifyWhileTrue up to the first that throws or returns false, and returns true iff there
    is none. *)
Theorem nthrow_passive : forall (fin : nat -> out) os e vs st l s, srun sinit os = Some (e, vs) -> qexec qinit os = Ok st -> find_list (lists e) l = Some s ->
  let cb := fun (_ : list call) (_ n : nat) => ends (fin n) in
  comes_to cb st [ANotify l] (map (pair l) (upto (fun n => throws (fin n)) s)) (if existsb (fun n => throws (fin n)) s then Thrown else Next) (find_list (lists e)) /\
  comes_to cb st [AWhile l [AReturn false]; AReturn true] (map (pair l) (upto (fun n => throws (fin n) || says_no (fin n)) s))
    (match find (fun n => throws (fin n) || says_no (fin n)) s with Some n => fin n | None => Returned true end) (find_list (lists e)).
Proof.
  intros fin os e vs st l s Hr Hx E cb. pose proof (passive_told fin false e l s [] [] E) as A. pose proof (passive_told fin true e l s [] [] E) as B. cbn [app] in A, B. split; eapply nthrow_nested; eauto.
  - assert (X : forall n, (throws (fin n) || false && says_no (fin n)) = throws (fin n)) by (intros n; now rewrite andb_false_l, orb_false_r).
    assert (U : upto (fun n => throws (fin n) || false && says_no (fin n)) s = upto (fun n => throws (fin n)) s) by (clear -X; induction s as [|n s IH]; cbn [upto]; [reflexivity|]; now rewrite X, IH).
    assert (F : match find (fun n => throws (fin n) || false && says_no (fin n)) s with Some n => fin n | None => Returned true end = if existsb (fun n => throws (fin n)) s then Thrown else Returned true).
    { clear -X. induction s as [|n s IH]; cbn [find existsb]; [reflexivity|]. rewrite X. destruct (throws (fin n)) eqn:Z; cbn [orb]; [|exact IH]. destruct (fin n); try discriminate. reflexivity. }
    rewrite U, F in A. destruct (existsb _ s); [eapply D_notify_throw; eauto|eapply D_notify; eauto; constructor].
  - clear A. cbn [andb] in B. destruct (find _ s) as [n|] eqn:F.
    + apply find_some in F as [_ F]. destruct (fin n) as [|[|]|]; try discriminate; [eapply (D_while _ _ _ _ _ _ _ _ _ false); eauto; constructor|eapply D_while_throw; eauto].
    + eapply (D_while _ _ _ _ _ _ _ _ _ true); eauto; constructor.
Qed.
(** As long as one throws, those after it are not called, however often the notification is repeated. *)
Theorem nthrow_repeat : forall (fin : nat -> out) os e vs st l s k, srun sinit os = Some (e, vs) -> qexec qinit os = Ok st -> find_list (lists e) l = Some s ->
  comes_to (fun _ _ n => ends (fin n)) st (repeat (ATry [ANotify l] []) k) (concat (repeat (map (pair l) (upto (fun n => throws (fin n)) s)) k)) Next (find_list (lists e)).
Proof.
  intros fin os e vs st l s k Hr Hx E. eapply nthrow_nested; eauto.
  assert (A : forall log, did (fun _ _ n => ends (fin n)) e log [ANotify l] e (log ++ map (pair l) (upto (fun n => throws (fin n)) s)) (if existsb (fun n => throws (fin n)) s then Thrown else Next)).
  { intros log. pose proof (passive_told fin false e l s [] log E) as A. cbn zeta in A.
    assert (X : forall n, (throws (fin n) || false && says_no (fin n)) = throws (fin n)) by (intros n; now rewrite andb_false_l, orb_false_r).
    assert (U : upto (fun n => throws (fin n) || false && says_no (fin n)) s = upto (fun n => throws (fin n)) s) by (clear -X; induction s as [|n s IH]; cbn [upto]; [reflexivity|]; now rewrite X, IH).
    assert (F : match find (fun n => throws (fin n) || false && says_no (fin n)) s with Some n => fin n | None => Returned true end = if existsb (fun n => throws (fin n)) s then Thrown else Returned true).
    { clear -X. induction s as [|n s IH]; cbn [find existsb]; [reflexivity|]. rewrite X. destruct (throws (fin n)) eqn:Z; cbn [orb]; [|exact IH]. destruct (fin n); try discriminate. reflexivity. }
    rewrite U, F in A. destruct (existsb _ s); [eapply D_notify_throw; eauto|eapply D_notify; eauto; constructor]. }
  enough (G : forall log, did (fun _ _ n => ends (fin n)) e log (repeat (ATry [ANotify l] []) k) e (log ++ concat (repeat (map (pair l) (upto (fun n => throws (fin n)) s)) k)) Next) by apply (G []).
  induction k as [|k IH]; intros log; [cbn; rewrite app_nil_r; constructor|]. rewrite !repeat_S. cbn [concat]. rewrite app_assoc. specialize (A log). destruct (existsb _ s); [eapply D_catch|eapply D_try]; eauto.
Qed.

(** ** What an observer may do that ends the notification *)
(** Anything: it may unsubscribe others that would have been called, or move the observable, if it then throws, or returns false to
    NotifyWhileTrue. *)
Theorem nthrow_break : forall (x : out) w cb os e vs st l s1 n s2 ops e1 vs1,
  srun sinit os = Some (e, vs) -> qexec qinit os = Ok st -> find_list (lists e) l = Some (s1 ++ n :: s2) ->
  (forall log m, In m s1 -> cb log l m = []) -> (forall log, cb log l n = map AOp ops ++ ends x) -> srun e ops = Some (e1, vs1) ->
  x = Thrown \/ x = Returned false /\ w = true ->
  comes_to cb st [ATry [if w then AWhile l [AReturn false] else ANotify l] [AReturn true]] (map (pair l) (s1 ++ [n])) (Returned (throws x)) (find_list (lists e1)).
Proof.
  intros x w cb os e vs st l s1 n s2 ops e1 vs1 Hr Hx E C1 C2 Ho X. eapply nthrow_nested; eauto.
  assert (O : forall ops e log vs1, srun e ops = Some (e1, vs1) -> did cb e log (map AOp ops ++ ends x) e1 log x).
  { clear. induction ops as [|o ops IH]; intros e log vs1; cbn [srun map app].
    - intros Y. injection Y as <- _. destruct x; constructor.
    - destruct (sstep e o) as [[e2 v]|] eqn:S; [|discriminate]. destruct (srun e2 ops) as [[e3 vs3]|] eqn:R; [|discriminate]. intros Y. injection Y as <- _. econstructor; eauto. }
  assert (TT : forall pre log, find_list (lists e) l = Some (pre ++ s1 ++ n :: s2) -> told cb w e log l (s1 ++ n :: s2) e1 (log ++ map (pair l) (s1 ++ [n])) x).
  { clear E. induction s1 as [|m s1 IH]; intros pre log E; cbn [app map].
    - specialize (O ops e (log ++ [(l, n)]) vs1 Ho). destruct X as [->|[-> ->]]; [apply T_throw|apply T_false]; rewrite C2; exact O.
    - eapply (T_next cb w e log l m _ e (log ++ [(l, m)]) Next (pre ++ [m])); [rewrite C1 by (cbn; auto); constructor|discriminate|discriminate|rewrite <- app_assoc; exact E|].
      specialize (IH (fun log m0 I => C1 log m0 (or_intror I)) (pre ++ [m]) (log ++ [(l, m)])). rewrite <- !app_assoc in IH. cbn [app] in IH. apply IH. exact E. }
  specialize (TT [] [] E). cbn [app] in TT. destruct X as [->|[-> ->]].
  - destruct w; (eapply D_catch; [|cbn [app]; apply D_return]); [eapply D_while_throw; eauto|eapply D_notify_throw; eauto].
  - eapply D_try_return. eapply (D_while _ _ _ _ _ _ _ _ _ false); eauto. constructor.
Qed.
Definition three : list qop := [QNewElem 1; QNewElem 2; QNewElem 3; QNewList 0; QPushBack 0 1; QPushBack 0 2; QPushBack 0 3].
(** The same observer that returns true makes the loop follow a null pointer. *)
Theorem nthrow_return_refuted : exists os st (cb : bool -> list call -> nat -> nat -> list act), qexec qinit os = Ok st /\
  (forall b log l n, cb b log l n = [] \/ cb b log l n = [AOp (QExclude 2); AReturn b]) /\
  (exists k, forall f, k <= f -> perform (cb true) f st [] [AWhile 0 []] = Undefined) /\
  exists subs, subs 0 = Some [1; 3] /\ comes_to (cb false) st [AWhile 0 []] [(0, 1)] Next subs.
Proof.
  exists three. eexists. exists (fun b _ _ n => if n =? 1 then [AOp (QExclude 2); AReturn b] else []). split; [reflexivity|]. split; [intros b log l n; destruct (n =? 1); auto|]. split.
  - exists 6. intros f F. match goal with |- perform ?c _ ?s _ _ = _ => assert (X : perform c 6 s [] [AWhile 0 []] = Undefined) by reflexivity; destruct (fuel_mono c 6 f F) as [P _]; rewrite P; [exact X|rewrite X; discriminate] end.
  - destruct (srun sinit three) as [[e vs]|] eqn:R; [|discriminate]. vm_compute in R. injection R as <- <-.
    eexists. split; [|eapply (nthrow_nested _ three); [reflexivity|reflexivity|]; eapply (D_while _ _ _ _ _ _ _ _ _ false); [reflexivity| |]]; [|apply T_false; eapply D_op; [reflexivity|constructor]|cbn; constructor]. reflexivity.
Qed.

(** ** Examples *)
(** Observable 1 with the observers 4, 5 and 6, which forward to observable 0 with the observers 1, 2 and 3: 4 in a try block, 5 asks
    and 6 notifies.  Observer 1 leaves at its first call and 2 throws at its first and returns false at its second. *)
Definition six : list qop := three ++ [QNewElem 4; QNewElem 5; QNewElem 6; QNewList 1; QPushBack 1 4; QPushBack 1 5; QPushBack 1 6].
Example nthrow_cascade_demo :
  let leave (_ : list call) n := n =? 1 in
  let targets (_ : list call) l n := if l =? 1 then [(0, if n =? 4 then Guarded else if n =? 5 then Asking else Plain)] else [] in
  let fin (log : list call) (_ n : nat) := if n =? 2 then (if length log =? 2 then Thrown else Returned false) else Next in
  match srun sinit six, qexec qinit six with
  | Some (e, _), Ok st =>
    find_list (lists e) 0 = Some [1; 2; 3] /\ find_list (lists e) 1 = Some [4; 5; 6] /\
    (forall log l n t m, In (t, m) (targets log l n) -> t < l /\ find_list (lists e) t <> None) /\
    match perform (forwarding leave targets fin) 60 st [] [ANotify 1], perform (forwarding leave targets fin) 60 st [] [AWhile 1 [AReturn false]; AReturn true] with
    | Done st1 log1 o1, Done st2 log2 o2 =>
      o1 = Next /\ log1 = [(1, 4); (0, 1); (0, 2); (1, 5); (0, 2); (1, 6); (0, 2); (0, 3)] /\ iterate 9 (fst st1) 0 = Ok [2; 3] /\
      o2 = Returned false /\ log2 = [(1, 4); (0, 1); (0, 2); (1, 5); (0, 2)]
    | _, _ => False
    end
  | _, _ => False
  end.
Proof.
  vm_compute srun. vm_compute qexec. cbv zeta. split; [reflexivity|]. split; [reflexivity|]. split.
  - intros _ l n t m. destruct (Nat.eqb_spec l 1) as [->|]; [|intros []]. intros [X|[]]. injection X as <- _. split; [lia|discriminate].
  - vm_compute. auto 6.
Qed.
(** Observer 2 throws: 3 is not called, however often. *)
Example nthrow_repeat_demo : match qexec qinit three with
  | Ok st => match perform (fun _ _ n => if n =? 2 then [AThrow] else []) 40 st [] (repeat (ATry [ANotify 0] []) 3) with
    | Done _ log o => o = Next /\ log = [(0, 1); (0, 2); (0, 1); (0, 2); (0, 1); (0, 2)]
    | _ => False
    end
  | _ => False
  end.
Proof. vm_compute. auto. Qed.
(** Observer 2 unsubscribes 3 and clears the way out with an exception. *)
Example nthrow_break_demo : match qexec qinit three with
  | Ok st => match perform (fun _ _ n => if n =? 2 then [AOp (QExclude 3); AOp (QExclude 2); AThrow] else []) 40 st [] [ATry [ANotify 0] [AReturn true]] with
    | Done st' log o => o = Returned true /\ log = [(0, 1); (0, 2)] /\ iterate 9 (fst st') 0 = Ok [1]
    | _ => False
    end
  | _ => False
  end.
Proof. vm_compute. auto. Qed.
