(** Proofs about interval_map: the map as a set of entries. *)
From Coq Require Import ZifyBool Sorted.
From Verif Require Import Common IntervalModel.
Local Open Scope Z_scope.

Section Proofs.
Context {V : Type} (veq : V -> V -> bool) (veq_ok : forall x y, veq x y = true <-> x = y).
Context (hi : Z) (overflow : res Z).
Notation entry := (Z * (Z * V))%type.
Notation imap := (list entry).

Definition ks (m : imap) : Prop := StronglySorted (fun e f : entry => fst e < fst f) m.
Lemma ks_cons e m : ks (e :: m) <-> ks m /\ forall f, In f m -> fst e < fst f.
Proof. unfold ks. split; [intros H; inversion H; subst; split; auto; now apply Forall_forall|intros [H1 H2]; constructor; auto; now apply Forall_forall]. Qed.
Lemma ks_fun m r x y : ks m -> In (r, x) m -> In (r, y) m -> x = y.
Proof.
  induction m as [|e m IH]; [contradiction|]. intros S [-> |I1] [E|I2]; apply ks_cons in S as [S1 S2].
  - congruence.
  - specialize (S2 _ I2). cbn in S2. lia.
  - subst e. specialize (S2 _ I1). cbn in S2. lia.
  - auto.
Qed.
Lemma lookup_ok m r x : ks m -> (lookup m r = Some x <-> In (r, x) m).
Proof.
  induction m as [|[r' y] m IH]; cbn [lookup]; intros S; [split; [discriminate|contradiction]|]. pose proof (proj1 (ks_cons _ _) S) as [S1 S2].
  destruct (Z.eqb_spec r' r) as [-> |D].
  - split; [intros [= ->]; now left|]. intros I. f_equal. apply (ks_fun ((r, y) :: m) r y x S); [now left|exact I].
  - rewrite IH by auto. split; [now right|]. intros [E|I]; auto. congruence.
Qed.
Lemma lower_bound_some (m : imap) k r : ks m -> lower_bound m k = Some r -> (exists l w, In (r, (l, w)) m) /\ k <= r /\ forall r' x, In (r', x) m -> k <= r' -> r <= r'.
Proof.
  induction m as [|[r' [l w]] m IH]; cbn [lower_bound]; intros S; [discriminate|]. apply ks_cons in S as [S1 S2]. destruct (Z.ltb_spec r' k) as [L|L].
  - intros H. destruct (IH S1 H) as ((l' & w' & I) & A & B). split; [exists l', w'; now right|]. split; auto. intros r2 x [E|I2] K; [injection E as <- <-; lia|eauto].
  - intros [= <-]. split; [exists l, w; now left|]. split; auto. intros r2 x [E|I2] K; [injection E as <- <-; lia|]. specialize (S2 _ I2). cbn in S2. lia.
Qed.
Lemma lower_bound_none (m : imap) k : lower_bound m k = None -> forall r x, In (r, x) m -> r < k.
Proof.
  induction m as [|[r' y] m IH]; cbn [lower_bound]; [contradiction|]. destruct (Z.ltb_spec r' k) as [L|L]; [|discriminate]. intros H r x [E|I]; [injection E as <- <-; auto|eauto].
Qed.
Lemma prev_some (m : imap) k r : ks m -> prev_of m k = Some r -> (exists l w, In (r, (l, w)) m) /\ r < k /\ forall r' x, In (r', x) m -> r' < k -> r' <= r.
Proof.
  revert r. induction m as [|[r' [l w]] m IH]; cbn [prev_of]; intros r S; [discriminate|]. apply ks_cons in S as [S1 S2]. destruct (Z.ltb_spec r' k) as [L|L]; [|discriminate].
  destruct (prev_of m k) as [p|] eqn:P.
  - intros [= <-]. destruct (IH p S1 eq_refl) as ((l' & w' & I) & A & B). split; [exists l', w'; now right|]. split; auto. intros r2 x [E|I2] K; [injection E as <- <-|eauto]. specialize (S2 _ I). cbn in S2. lia.
  - intros [= <-]. split; [exists l, w; now left|]. split; auto. intros r2 x [E|I2] K; [injection E as <- <-; lia|]. exfalso. clear IH.
    destruct m as [|[r3 y] m]; [contradiction|]. cbn [prev_of] in P. destruct (Z.ltb_spec r3 k) as [L3|L3]; [destruct (prev_of m k); discriminate|].
    apply ks_cons in S1 as [_ S3]. destruct I2 as [E|I2]; [injection E as <- <-; lia|]. specialize (S3 _ I2). cbn in S3. lia.
Qed.
Lemma prev_none (m : imap) k : ks m -> prev_of m k = None -> forall r x, In (r, x) m -> k <= r.
Proof.
  destruct m as [|[r' y] m]; cbn [prev_of]; intros S; [contradiction|]. apply ks_cons in S as [_ S2]. destruct (Z.ltb_spec r' k) as [L|L]; [destruct (prev_of m k); discriminate|].
  intros _ r x [E|I]; [injection E as <- <-; auto|]. specialize (S2 _ I). cbn in S2. lia.
Qed.
Lemma emplace_ok (m : imap) r x : ks m -> (forall y, ~ In (r, y) m) -> exists m', insert_new m r x = Ok m' /\ ks m' /\ forall e, In e m' <-> e = (r, x) \/ In e m.
Proof.
  intros S N. unfold insert_new. enough (H : exists m', emplace m r x = (m', true) /\ ks m' /\ forall e, In e m' <-> e = (r, x) \/ In e m) by (destruct H as (m' & -> & H); eauto).
  induction m as [|[r' y] m IH]; cbn [emplace].
  - eexists; split; [reflexivity|]. split; [apply ks_cons; split; [constructor|contradiction]|]. intros e; cbn; intuition.
  - pose proof (proj1 (ks_cons _ _) S) as [S1 S2]. destruct (Z.ltb_spec r r') as [L|L].
    + eexists; split; [reflexivity|]. split; [|intros e; cbn; intuition]. apply ks_cons. split; auto. intros f [<- |I]; cbn; [lia|]. specialize (S2 _ I). cbn in S2. lia.
    + destruct (Z.eqb_spec r' r) as [-> |D]; [exfalso; apply (N y); now left|]. destruct (IH S1) as (m' & E & K & M); [intros z I; apply (N z); now right|]. rewrite E.
      eexists; split; [reflexivity|]. split; [|intros e; cbn; rewrite M; intuition]. apply ks_cons. split; auto. intros f I. apply M in I as [-> |I]; cbn; [lia|now apply S2].
Qed.
Lemma ks_filter m f : ks m -> ks (filter f m).
Proof.
  induction m as [|e m IH]; intros S; [constructor|]. apply ks_cons in S as [S1 S2]. cbn [filter]. destruct (f e); auto. apply ks_cons. split; auto. intros g I. apply filter_In in I as [I _]. auto.
Qed.
Lemma erase_ok (m : imap) r : ks m -> ks (erase m r) /\ forall e, In e (erase m r) <-> In e m /\ fst e <> r.
Proof. intros S. split; [now apply ks_filter|]. intros e. unfold erase. rewrite filter_In. split; intros [I D]; (split; [exact I|lia]). Qed.
Lemma range_ok (m : imap) f l : ks m -> ks (erase_range m f l) /\ forall e, In e (erase_range m f l) <-> In e m /\ (fst e < f \/ match l with Some k => k <= fst e | None => False end).
Proof. intros S. split; [now apply ks_filter|]. intros e. unfold erase_range. rewrite filter_In. destruct l; (split; intros [I D]; (split; [exact I|lia])). Qed.
Lemma set_left_ok (m : imap) r l : ks m -> ks (set_left m r l) /\ forall r' l' w, In (r', (l', w)) (set_left m r l) <-> In (r', (l', w)) m /\ r' <> r \/ r' = r /\ l' = l /\ exists l0, In (r, (l0, w)) m.
Proof.
  intros S. assert (F : forall e : entry, fst (if fst e =? r then (r, (l, snd (snd e))) else e) = fst e) by (intros e; destruct (Z.eqb_spec (fst e) r); auto). split.
  - induction m as [|e m IH]; [constructor|]. apply ks_cons in S as [S1 S2]. cbn [set_left map]. apply ks_cons. split; [now apply IH|].
    intros f I. unfold set_left in I. apply in_map_iff in I as (g & <- & I). rewrite !F. auto.
  - intros r' l' w. unfold set_left. rewrite in_map_iff. split.
    + intros ([r0 [l0 w0]] & E & I). cbn in E. destruct (Z.eqb_spec r0 r) as [-> |D]; injection E as <- <- <-; [right; eauto 6|now left].
    + intros [[I D]|(-> & -> & l0 & I)]; [exists (r', (l', w))|exists (r, (l0, w))]; cbn; (split; auto).
      * now destruct (Z.eqb_spec r' r).
      * now rewrite Z.eqb_refl.
Qed.

(** Entries are intervals, apart from each other, within the keys. *)
Definition good (m : imap) : Prop := ks m /\
  (forall r l w, In (r, (l, w)) m -> l <= r <= hi) /\ forall r l w r' l' w', In (r, (l, w)) m -> In (r', (l', w')) m -> r < r' -> r < l'.
Definition holds (m : imap) (k : Z) (w : V) : Prop := exists r l, In (r, (l, w)) m /\ l <= k <= r.
Lemma holds_fun m k w w' : good m -> holds m k w -> holds m k w' -> w = w'.
Proof.
  intros (S & _ & A) (r & l & I & L) (r' & l' & I' & L'). destruct (Z.lt_trichotomy r r') as [H|[-> |H]].
  - specialize (A _ _ _ _ _ _ I I' H). lia.
  - pose proof (ks_fun _ _ _ _ S I I'). congruence.
  - specialize (A _ _ _ _ _ _ I' I H). lia.
Qed.
Lemma at_ok m k : good m -> (exists w, holds m k w /\ at_ m k = Ok w /\ contains m k = Ok true) \/ ((forall w, ~ holds m k w) /\ at_ m k = Throw OutOfRange /\ contains m k = Ok false).
Proof.
  intros (S & W & A). unfold at_, contains. destruct (lower_bound m k) as [r|] eqn:B.
  - destruct (lower_bound_some _ _ _ S B) as ((l & w & I) & K & M). rewrite (proj2 (lookup_ok m r (l, w) S) I). destruct (Z.leb_spec l k) as [L|L].
    + left. exists w. split; [exists r, l; auto|auto].
    + right. split; auto. intros w' (r' & l' & I' & L'). specialize (M _ _ I' ltac:(lia)). destruct (Z.eq_dec r r') as [<- |D].
      * pose proof (ks_fun _ _ _ _ S I I') as [= <- <-]. lia.
      * specialize (A _ _ _ _ _ _ I I' ltac:(lia)). specialize (W _ _ _ I). lia.
  - right. split; auto. intros w (r & l & I & L). specialize (lower_bound_none _ _ B _ _ I). lia.
Qed.

(** ** Cutting [a, b] out *)
Definition trimmed (m : imap) (a b r l : Z) (w : V) : Prop :=
  In (r, (l, w)) m /\ (r < a \/ b < l) \/ (exists r0, In (r0, (l, w)) m /\ l < a <= r0 /\ r = a - 1) \/ (exists l0, In (r, (l0, w)) m /\ l0 <= b < r /\ l = b + 1 /\ a <= r).

Lemma cut_b_ok m a b f : good m -> a <= b <= hi -> (b = hi -> forall x, ~ In (hi, x) m) ->
  (forall r l w, In (r, (l, w)) m -> r < a \/ a <= l /\ f <= r) -> a <= f -> exists m', cut_b hi overflow m (Some f) b = Ok m' /\ ks m' /\
  forall r l w, In (r, (l, w)) m' <-> In (r, (l, w)) m /\ (r < a \/ b < l) \/ (exists l0, In (r, (l0, w)) m /\ a <= l0 <= b /\ b < r /\ l = b + 1).
Proof.
  intros G AB HB F AF. pose proof G as (S & W & A). unfold cut_b. destruct (lower_bound m b) as [br|] eqn:B.
  - destruct (lower_bound_some _ _ _ S B) as ((l & w & I) & K & M). rewrite (proj2 (lookup_ok m br (l, w) S) I).
    pose proof (W _ _ _ I) as Wb.
    assert (U : forall r x y, In (r, (x, y)) m -> b <= r -> r = br /\ x = l /\ y = w \/ br < r /\ br < x).
    { intros r x y J L. specialize (M _ _ J L). destruct (Z.eq_dec br r) as [<- |D]; [left; pose proof (ks_fun _ _ _ _ S I J) as [= <- <-]; auto|right; split; [lia|]; eapply A; eauto; lia]. }
    destruct (Z.leb_spec l b) as [L|L].
    + unfold next_key. destruct (Z.eqb_spec b hi) as [-> |D]; [exfalso; assert (br = hi) as -> by lia; now apply (HB eq_refl) in I|]. cbn [rbind].
      destruct (Z.leb_spec (b + 1) br) as [L2|L2]; (eexists; split; [reflexivity|]).
      * destruct (set_left_ok m br (b + 1) S) as [S' H']. destruct (range_ok (set_left m br (b + 1)) f (Some br) S') as [S2 H2]. split; auto. intros r x y. rewrite H2, H'. cbn [fst]. split.
        -- intros [[[J D1]|(-> & -> & l0 & J)] Q].
           ++ left. split; auto. destruct (F _ _ _ J) as [?|[? ?]]; [now left|]. destruct Q as [?|Q]; [lia|]. right. destruct (U _ _ _ J ltac:(lia)) as [?|?]; lia.
           ++ right. exists l0. destruct (U _ _ _ J ltac:(lia)) as [(_ & -> & ->)|?]; [|lia]. split; auto. destruct (F _ _ _ I) as [?|[? ?]]; lia.
        -- intros [[J Q]|(l0 & J & Q1 & Q2 & ->)].
           ++ pose proof (W _ _ _ J). destruct Q as [Q|Q].
              ** split; [left; split; auto; lia|left; lia].
              ** destruct (U _ _ _ J ltac:(lia)) as [?|?]; [lia|]. split; [left; split; auto; lia|right; lia].
           ++ destruct (U _ _ _ J ltac:(lia)) as [(-> & -> & ->)|?]; [|lia]. split; [right; eauto|right; lia].
      * destruct (range_ok m f (next_of m br) S) as [S2 H2]. split; auto. intros r x y. rewrite H2. cbn [fst].
        assert (NX : forall r l w, In (r, (l, w)) m -> (match next_of m br with Some k => k <= r | None => False end <-> br < r)).
        { intros r1 l1 w1 J. unfold next_of. destruct (lower_bound m (br + 1)) as [n|] eqn:E.
          - destruct (lower_bound_some _ _ _ S E) as (_ & E1 & E2). split; [lia|]. intros. apply (E2 _ _ J). lia.
          - pose proof (lower_bound_none _ _ E _ _ J). lia. }
        split.
        -- intros [J Q]. rewrite (NX _ _ _ J) in Q. left. split; auto. destruct (F _ _ _ J) as [?|[? ?]]; [now left|]. destruct Q as [?|Q]; [lia|]. right. destruct (U _ _ _ J ltac:(lia)) as [?|?]; lia.
        -- intros [[J Q]|(l0 & J & Q1 & Q2 & ->)]; pose proof (W _ _ _ J).
           ++ split; auto. rewrite (NX _ _ _ J). destruct Q as [Q|Q]; [left; lia|]. right. destruct (U _ _ _ J ltac:(lia)) as [?|?]; lia.
           ++ destruct (U _ _ _ J ltac:(lia)) as [?|?]; lia.
    + eexists; split; [reflexivity|]. destruct (range_ok m f (Some br) S) as [S2 H2]. split; auto. intros r x y. rewrite H2. cbn [fst]. split.
      * intros [J Q]. left. split; auto. destruct (F _ _ _ J) as [?|[? ?]]; [now left|]. destruct Q as [?|Q]; [lia|]. right. destruct (U _ _ _ J ltac:(lia)) as [?|?]; lia.
      * intros [[J Q]|(l0 & J & Q1 & Q2 & ->)]; pose proof (W _ _ _ J).
        -- split; auto. destruct Q as [Q|Q]; [left; lia|]. right. destruct (U _ _ _ J ltac:(lia)) as [?|?]; lia.
        -- destruct (U _ _ _ J ltac:(lia)) as [?|?]; lia.
  - pose proof (lower_bound_none _ _ B) as NB. eexists; split; [reflexivity|]. destruct (range_ok m f None S) as [S2 H2]. split; auto. intros r x y. rewrite H2. cbn [fst]. split.
    + intros [J [Q|[]]]. left. split; auto. destruct (F _ _ _ J); lia.
    + intros [[J Q]|(l0 & J & Q1 & Q2 & ->)]; pose proof (NB _ _ J); pose proof (W _ _ _ J); [|lia]. split; [auto|lia].
Qed.

Lemma cut_ok m a b : good m -> a <= b <= hi -> (b = hi -> forall x, ~ In (hi, x) m) ->
  exists m1 rb m2, cut_a hi overflow m a b = Ok (m1, rb) /\ cut_b hi overflow m1 rb b = Ok m2 /\ ks m2 /\ forall r l w, In (r, (l, w)) m2 <-> trimmed m a b r l w.
Proof.
  intros G AB HB. pose proof G as (S & W & A). unfold cut_a, trimmed. destruct (lower_bound m a) as [ar|] eqn:B.
  - destruct (lower_bound_some _ _ _ S B) as ((l & w & I) & K & M). rewrite (proj2 (lookup_ok m ar (l, w) S) I). pose proof (W _ _ _ I) as Wa.
    assert (U : forall r x y, In (r, (x, y)) m -> a <= r -> r = ar /\ x = l /\ y = w \/ ar < r /\ ar < x).
    { intros r x y J L. specialize (M _ _ J L). destruct (Z.eq_dec ar r) as [<- |D]; [left; pose proof (ks_fun _ _ _ _ S I J) as [= <- <-]; auto|right; split; [lia|]; eapply A; eauto; lia]. }
    destruct (Z.ltb_spec l a) as [L|L].
    + destruct (erase_ok m ar S) as [S1 H1]. destruct (emplace_ok (erase m ar) (a - 1) (l, w) S1) as (m2 & -> & S2 & H2).
      { intros [x y] J. apply H1 in J as [J D]. cbn in D. pose proof (A _ _ _ _ _ _ J I ltac:(lia)). lia. }
      cbn [rbind].
      assert (E2 : forall r x y, In (r, (x, y)) m2 <-> r = a - 1 /\ x = l /\ y = w \/ In (r, (x, y)) m /\ r <> ar).
      { intros r x y. rewrite H2, H1. cbn [fst]. split; (intros [Q|Q]; [left|now right]); [injection Q; auto|destruct Q as (-> & -> & ->); auto]. }
      destruct (Z.ltb_spec b ar) as [L2|L2].
      * unfold next_key. replace (b =? hi) with false by lia. cbn [rbind]. destruct (emplace_ok m2 ar (b + 1, w) S2) as (m3 & -> & S3 & H3).
        { intros [x y] J. apply E2 in J as [?|[_ ?]]; lia. }
        cbn [rbind]. eexists _, _, _; split; [reflexivity|]. split; [reflexivity|]. split; auto. intros r x y. rewrite H3, E2. split.
        -- intros [Q|[(-> & -> & ->)|[J D]]].
           ++ injection Q as -> -> ->. right. right. exists l. split; [auto|lia].
           ++ right. left. exists ar. split; [auto|lia].
           ++ left. split; auto. destruct (Z_lt_le_dec r a); [now left|]. destruct (U _ _ _ J ltac:(lia)) as [?|?]; lia.
        -- intros [[J Q]|[(r0 & J & Q1 & ->)|(l0 & J & Q1 & -> & Q2)]].
           ++ right. right. split; auto. intros ->. pose proof (ks_fun _ _ _ _ S I J) as [= <- <-]. lia.
           ++ right. left. destruct (U _ _ _ J ltac:(lia)) as [(_ & -> & ->)|?]; [auto|lia].
           ++ left. destruct (U _ _ _ J ltac:(lia)) as [(-> & -> & ->)|?]; [auto|lia].
      * (* the rest of the interval is dropped *)
        assert (G2 : good m2).
        { split; auto. split.
          - intros r x y J. apply E2 in J as [?|[J _]]; [lia|eauto].
          - intros r x y r' x' y' J J' R. apply E2 in J as [(-> & -> & ->)|[J D]]; apply E2 in J' as [(-> & -> & ->)|[J' D']]; try lia.
            + destruct (U _ _ _ J' ltac:(lia)) as [?|?]; lia.
            + apply (A _ _ _ _ _ _ J I). lia.
            + eapply A; eauto. }
        assert (T : forall r x y, (In (r, (x, y)) m2 /\ (r < a \/ b < x) \/ (exists l0, In (r, (l0, y)) m2 /\ a <= l0 <= b /\ b < r /\ x = b + 1)) <->
          In (r, (x, y)) m /\ (r < a \/ b < x) \/ (exists r0, In (r0, (x, y)) m /\ x < a <= r0 /\ r = a - 1) \/ (exists l0, In (r, (l0, y)) m /\ l0 <= b < r /\ x = b + 1 /\ a <= r)).
        { intros r x y. split.
          - intros [[J Q]|(l0 & J & Q1 & Q2 & ->)].
            + apply E2 in J as [(-> & -> & ->)|[J D]]; [right; left; exists ar; split; auto; lia|left; auto].
            + apply E2 in J as [?|[J D]]; [lia|]. right. right. exists l0. split; [auto|lia].
          - intros [[J Q]|[(r0 & J & Q1 & ->)|(l0 & J & Q1 & -> & Q2)]].
            + left. split; auto. apply E2. right. split; auto. intros ->. pose proof (ks_fun _ _ _ _ S I J) as [= <- <-]. lia.
            + left. destruct (U _ _ _ J ltac:(lia)) as [(_ & -> & ->)|?]; [|lia]. split; [apply E2; now left|left; lia].
            + right. destruct (U _ _ _ J ltac:(lia)) as [?|?]; [lia|]. exists l0. split; [apply E2; right; split; auto; lia|lia]. }
        destruct (next_of m2 (a - 1)) as [f|] eqn:N.
        -- destruct (lower_bound_some _ _ _ S2 N) as ((lf & wf & If) & Kf & Mf).
           destruct (cut_b_ok m2 a b f G2 AB) as (m' & E' & S' & H').
           ++ intros -> [x y] J. apply E2 in J as [?|[J _]]; [lia|]. now apply (HB eq_refl) in J.
           ++ intros r x y J. destruct (Z_lt_le_dec r a); [now left|]. right. split; [|apply (Mf _ _ J); lia]. apply E2 in J as [?|[J D]]; [lia|]. destruct (U _ _ _ J ltac:(lia)) as [?|?]; lia.
           ++ lia.
           ++ eexists _, _, _; split; [reflexivity|]. split; [exact E'|]. split; auto. intros r x y. rewrite H'. apply T.
        -- pose proof (lower_bound_none _ _ N) as NN. eexists _, _, _; split; [reflexivity|]. split; [reflexivity|]. split; auto. intros r x y. rewrite <- T. split.
           ++ intros J. left. split; auto. pose proof (NN _ _ J). lia.
           ++ intros [[J _]|(l0 & J & Q1 & Q2 & _)]; auto. pose proof (NN _ _ J). lia.
    + destruct (cut_b_ok m a b ar G AB HB) as (m' & E' & S' & H').
      * intros r x y J. destruct (Z_lt_le_dec r a); [now left|]. right. destruct (U _ _ _ J ltac:(lia)) as [?|?]; lia.
      * lia.
      * eexists _, _, _; split; [reflexivity|]. split; [exact E'|]. split; auto. intros r x y. rewrite H'. split.
        -- intros [Q|(l0 & J & Q1 & Q2 & ->)]; [now left|]. right. right. exists l0. split; [auto|lia].
        -- intros [Q|[(r0 & J & Q1 & ->)|(l0 & J & Q1 & -> & Q2)]]; [now left| |].
           ++ destruct (U _ _ _ J ltac:(lia)) as [?|?]; lia.
           ++ right. exists l0. split; auto. destruct (U _ _ _ J ltac:(lia)) as [?|?]; lia.
  - pose proof (lower_bound_none _ _ B) as NB. eexists _, _, _; split; [reflexivity|]. split; [reflexivity|]. split; auto. intros r x y. split.
    + intros J. left. split; auto. pose proof (NB _ _ J). lia.
    + intros [[J _]|[(r0 & J & Q1 & _)|(l0 & J & Q1 & _ & Q2)]]; auto; pose proof (NB _ _ J); lia.
Qed.

Lemma trimmed_from m a b r l w : good m -> a <= b -> trimmed m a b r l w -> exists r0 l0, In (r0, (l0, w)) m /\ l0 <= l <= r /\ r <= r0 <= hi /\ (r < a \/ b < l) /\
  (r = r0 /\ l = l0 \/ r = a - 1 /\ l = l0 /\ a <= r0 \/ l = b + 1 /\ r = r0 /\ l0 <= b).
Proof.
  intros (S & W & A) AB [[J Q]|[(r0 & J & Q1 & ->)|(l0 & J & Q1 & -> & Q2)]]; pose proof (W _ _ _ J).
  - exists r, l. split; [auto|lia].
  - exists r0, l. split; [auto|lia].
  - exists r, l0. split; [auto|lia].
Qed.
Lemma trimmed_good m a b m2 : good m -> a <= b -> ks m2 -> (forall r l w, In (r, (l, w)) m2 <-> trimmed m a b r l w) -> good m2.
Proof.
  intros G AB S2 T. pose proof G as (S & W & A). split; auto. split.
  - intros r l w J. apply T in J. destruct (trimmed_from _ _ _ _ _ _ G AB J) as (r0 & l0 & _ & Q). lia.
  - intros r l w r' l' w' J J' R. apply T in J, J'. destruct (trimmed_from _ _ _ _ _ _ G AB J) as (r0 & l0 & I & Q). destruct (trimmed_from _ _ _ _ _ _ G AB J') as (r0' & l0' & I' & Q').
    destruct (Z.lt_trichotomy r0 r0') as [H|[-> |H]].
    + specialize (A _ _ _ _ _ _ I I' H). lia.
    + pose proof (ks_fun _ _ _ _ S I I') as X. injection X as -> ->. lia.
    + specialize (A _ _ _ _ _ _ I' I H). lia.
Qed.
Lemma trimmed_holds m a b m2 : good m -> a <= b -> (forall r l w, In (r, (l, w)) m2 <-> trimmed m a b r l w) -> forall k w, holds m2 k w <-> holds m k w /\ (k < a \/ b < k).
Proof.
  intros G AB T k w. split.
  - intros (r & l & J & L). apply T in J. destruct (trimmed_from _ _ _ _ _ _ G AB J) as (r0 & l0 & I & Q). split; [exists r0, l0; split; [auto|lia]|lia].
  - intros ((r & l & J & L) & Q). pose proof G as (_ & W & _). destruct Q as [Q|Q].
    + destruct (Z_lt_le_dec r a).
      * exists r, l. split; [apply T; left; auto|lia].
      * exists (a - 1), l. split; [apply T; right; left; exists r; split; [auto|lia]|lia].
    + destruct (Z_lt_le_dec b l).
      * exists r, l. split; [apply T; left; auto|lia].
      * exists r, (b + 1). split; [apply T; right; right; exists l; split; [auto|lia]|lia].
Qed.

(** ** Merging *)
Lemma merge_prev_ok m a b v : good m -> In (b, (a, v)) m -> exists m' l, merge_prev veq m b a v = (m', l) /\ good m' /\ In (b, (l, v)) m' /\ l <= a /\
  (forall r x w, b < r -> (In (r, (x, w)) m' <-> In (r, (x, w)) m)) /\
  forall k w, holds m' k w <-> holds m k w \/ w = v /\ exists p, p < k < a /\ holds m p v /\ forall j y, p < j < a -> ~ holds m j y.
Proof.
  intros G I. pose proof G as (S & W & A). pose proof (W _ _ _ I) as Wab. unfold merge_prev.
  assert (KEEP : (forall p, p < a - 1 -> holds m p v -> exists j y, p < j < a /\ holds m j y) -> exists m' l, (m, a) = (m', l) /\ good m' /\ In (b, (l, v)) m' /\ l <= a /\
    (forall r x w, b < r -> (In (r, (x, w)) m' <-> In (r, (x, w)) m)) /\ forall k w, holds m' k w <-> holds m k w \/ w = v /\ exists p, p < k < a /\ holds m p v /\ forall j y, p < j < a -> ~ holds m j y).
  { intros N. exists m, a. split; auto. split; auto. split; auto. split; [lia|]. split; [reflexivity|]. intros k w. split; [now left|]. intros [H|(-> & p & L & H & E)]; auto.
    exfalso. destruct (N p ltac:(lia) H) as (j & y & L' & H'). now apply (E j y). }
  destruct (prev_of m b) as [p|] eqn:P.
  - destruct (prev_some _ _ _ S P) as ((l & w & J) & PB & M). rewrite (proj2 (lookup_ok m p (l, w) S) J). pose proof (A _ _ _ _ _ _ J I PB) as PA. pose proof (W _ _ _ J) as Wp.
    assert (HP : holds m p w) by (exists p, l; split; [auto|lia]).
    assert (UP : forall j y, p < j < a -> ~ holds m j y).
    { intros j y L (r & x & J' & L'). destruct (Z_lt_le_dec r b) as [R|R]; [specialize (M _ _ J' R); lia|]. destruct (Z.eq_dec b r) as [<- |D]; [pose proof (ks_fun _ _ _ _ S I J') as X; injection X as -> ->; lia|].
      specialize (A _ _ _ _ _ _ I J' ltac:(lia)). lia. }
    destruct (veq v w) eqn:E.
    + apply veq_ok in E. subst w. destruct (set_left_ok m b l S) as [S1 H1]. destruct (erase_ok (set_left m b l) p S1) as [S2 H2].
      assert (E2 : forall r x y, In (r, (x, y)) (erase (set_left m b l) p) <-> In (r, (x, y)) m /\ r <> b /\ r <> p \/ r = b /\ x = l /\ y = v).
      { intros r x y. rewrite H2, H1. cbn [fst]. split.
        - intros [[[Q1 Q2]|(-> & -> & l0 & Q)] D]; [left; auto|right]. pose proof (ks_fun _ _ _ _ S I Q) as X. injection X as _ <-. auto.
        - intros [(Q1 & Q2 & Q3)|(-> & -> & ->)]; [split; [left; auto|auto]|]. split; [right; eauto|lia]. }
      exists (erase (set_left m b l) p), l. split; auto. split; [|split; [apply E2; auto|split; [lia|split]]].
      * split; auto. split.
        -- intros r x y Q. apply E2 in Q as [(Q & _)|(-> & -> & ->)]; [eauto|lia].
        -- intros r x y r' x' y' Q Q' R. apply E2 in Q as [(Q & Q2 & Q3)|(-> & -> & ->)]; apply E2 in Q' as [(Q' & Q2' & Q3')|(-> & -> & ->)].
           ++ eapply A; eauto.
           ++ specialize (M _ _ Q R). eapply A; eauto. lia.
           ++ apply (A _ _ _ _ _ _ I Q' R).
           ++ lia.
      * intros r x y R. rewrite E2. split; [intros [(Q & _)|?]; [auto|lia]|]. intros Q. left. split; [auto|lia].
      * intros k y. split.
        -- intros (r & x & Q & L). apply E2 in Q as [(Q & _)|(-> & -> & ->)]; [left; exists r, x; auto|].
           destruct (Z_le_gt_dec a k); [left; exists b, a; split; [auto|lia]|]. destruct (Z_le_gt_dec k p); [left; exists p, l; split; [auto|lia]|].
           right. split; auto. exists p. split; [lia|auto].
        -- intros [(r & x & Q & L)|(-> & q & L & Hq & N)].
           ++ destruct (Z.eq_dec r b) as [-> |D1]; [pose proof (ks_fun _ _ _ _ S I Q) as X; injection X as -> ->; exists b, l; split; [apply E2; auto|lia]|].
              destruct (Z.eq_dec r p) as [-> |D2]; [pose proof (ks_fun _ _ _ _ S J Q) as X; injection X as -> ->; exists b, x; split; [apply E2; auto|lia]|].
              exists r, x. split; [apply E2; auto|lia].
           ++ assert (q = p) as ->. { destruct (Z.lt_trichotomy q p) as [H|[H|H]]; auto; exfalso; [apply (N p v); auto; lia|apply (UP q v); auto; lia]. }
              exists b, l. split; [apply E2; auto|lia].
    + apply KEEP. intros q L Hq. destruct (Z.lt_trichotomy q p) as [H|[-> |H]]; [exists p, w; split; [lia|auto]| |exfalso; apply (UP q v); auto; lia].
      exfalso. pose proof (holds_fun _ _ _ _ G Hq HP) as <-. assert (veq v v = true) by now apply veq_ok. congruence.
  - apply KEEP. intros q L (r & x & J & L'). exfalso. pose proof (prev_none _ _ S P _ _ J). destruct (Z.eq_dec b r) as [<- |D]; [pose proof (ks_fun _ _ _ _ S I J) as X; injection X as <-; lia|].
    specialize (A _ _ _ _ _ _ I J ltac:(lia)). lia.
Qed.
Lemma merge_next_ok m a b v : good m -> In (b, (a, v)) m -> good (merge_next veq m b a v) /\
  forall k w, holds (merge_next veq m b a v) k w <-> holds m k w \/ w = v /\ exists n, b < k < n /\ holds m n v /\ forall j y, b < j < n -> ~ holds m j y.
Proof.
  intros G I. pose proof G as (S & W & A). pose proof (W _ _ _ I) as Wab. unfold merge_next.
  assert (KEEP : (forall n, b + 1 < n -> holds m n v -> exists j y, b < j < n /\ holds m j y) -> good m /\ forall k w, holds m k w <-> holds m k w \/ w = v /\ exists n, b < k < n /\ holds m n v /\ forall j y, b < j < n -> ~ holds m j y).
  { intros N. split; auto. intros k w. split; [now left|]. intros [H|(-> & n & L & H & E)]; auto. exfalso. destruct (N n ltac:(lia) H) as (j & y & L' & H'). now apply (E j y). }
  destruct (next_of m b) as [n|] eqn:P.
  - destruct (lower_bound_some _ _ _ S P) as ((l & w & J) & NB & M). rewrite (proj2 (lookup_ok m n (l, w) S) J). pose proof (A _ _ _ _ _ _ I J ltac:(lia)) as LB. pose proof (W _ _ _ J) as Wn.
    assert (HL : holds m l w) by (exists n, l; split; [auto|lia]).
    assert (UP : forall j y, b < j < l -> ~ holds m j y).
    { intros j y L (r & x & J' & L'). specialize (M _ _ J' ltac:(lia)). destruct (Z.eq_dec n r) as [<- |D]; [pose proof (ks_fun _ _ _ _ S J J') as X; injection X as -> ->; lia|].
      specialize (A _ _ _ _ _ _ J J' ltac:(lia)). lia. }
    destruct (veq v w) eqn:E.
    + apply veq_ok in E. subst w. destruct (set_left_ok m n a S) as [S1 H1]. destruct (erase_ok (set_left m n a) b S1) as [S2 H2].
      assert (E2 : forall r x y, In (r, (x, y)) (erase (set_left m n a) b) <-> In (r, (x, y)) m /\ r <> b /\ r <> n \/ r = n /\ x = a /\ y = v).
      { intros r x y. rewrite H2, H1. cbn [fst]. split.
        - intros [[[Q1 Q2]|(-> & -> & l0 & Q)] D]; [left; auto|right]. pose proof (ks_fun _ _ _ _ S J Q) as X. injection X as _ <-. auto.
        - intros [(Q1 & Q2 & Q3)|(-> & -> & ->)]; [split; [left; auto|auto]|]. split; [right; eauto|lia]. }
      split.
      * split; auto. split.
        -- intros r x y Q. apply E2 in Q as [(Q & _)|(-> & -> & ->)]; [eauto|lia].
        -- intros r x y r' x' y' Q Q' R. apply E2 in Q as [(Q & Q2 & Q3)|(-> & -> & ->)]; apply E2 in Q' as [(Q' & Q2' & Q3')|(-> & -> & ->)].
           ++ eapply A; eauto.
           ++ destruct (Z_lt_le_dec r b) as [H|H]; [apply (A _ _ _ _ _ _ Q I H)|]. specialize (M _ _ Q ltac:(lia)). lia.
           ++ apply (A _ _ _ _ _ _ J Q' R).
           ++ lia.
      * intros k y. split.
        -- intros (r & x & Q & L). apply E2 in Q as [(Q & _)|(-> & -> & ->)]; [left; exists r, x; auto|].
           destruct (Z_le_gt_dec k b); [left; exists b, a; split; [auto|lia]|]. destruct (Z_le_gt_dec l k); [left; exists n, l; split; [auto|lia]|].
           right. split; auto. exists l. split; [lia|auto].
        -- intros [(r & x & Q & L)|(-> & q & L & Hq & N)].
           ++ destruct (Z.eq_dec r b) as [-> |D1]; [pose proof (ks_fun _ _ _ _ S I Q) as X; injection X as -> ->; exists n, x; split; [apply E2; auto|lia]|].
              destruct (Z.eq_dec r n) as [-> |D2]; [pose proof (ks_fun _ _ _ _ S J Q) as X; injection X as -> ->; exists n, a; split; [apply E2; auto|lia]|].
              exists r, x. split; [apply E2; auto|lia].
           ++ assert (q = l) as ->. { destruct (Z.lt_trichotomy q l) as [H|[H|H]]; auto; exfalso; [apply (UP q v); auto; lia|apply (N l v); auto; lia]. }
              exists n, a. split; [apply E2; auto|lia].
    + apply KEEP. intros q L Hq. destruct (Z.lt_trichotomy q l) as [H|[-> |H]]; [exfalso; apply (UP q v); auto; lia| |exists l, w; split; [lia|auto]].
      exfalso. pose proof (holds_fun _ _ _ _ G Hq HL) as <-. assert (veq v v = true) by now apply veq_ok. congruence.
  - apply KEEP. intros q L (r & x & J & L'). exfalso. pose proof (lower_bound_none _ _ P _ _ J). lia.
Qed.

(** Keys that merging adds: the gap up to the next stored key with the same value *)
Definition fills (m : imap) (a b : Z) (v : V) (k : Z) : Prop :=
  (exists p, p < k < a /\ holds m p v /\ forall j y, p < j < a -> ~ holds m j y) \/ (exists n, b < k < n /\ holds m n v /\ forall j y, b < j < n -> ~ holds m j y).
Lemma assign_ok m a b v : good m -> a <= b <= hi -> (b = hi -> forall w, ~ holds m hi w) ->
  exists m', assign veq hi overflow m a b v = Ok m' /\ good m' /\ forall k w, holds m' k w <-> a <= k <= b /\ w = v \/ ~ a <= k <= b /\ holds m k w \/ w = v /\ fills m a b v k.
Proof.
  intros G AB HB. pose proof G as (S & W & A). unfold assign. replace (a <=? b) with true by lia.
  destruct (cut_ok m a b G AB) as (m1 & rb & m2 & -> & E2 & S2 & T).
  { intros -> [l w] J. apply (HB eq_refl w). exists hi, l. split; auto. pose proof (W _ _ _ J). lia. }
  cbn [rbind]. rewrite E2. cbn [rbind]. assert (AB' : a <= b) by lia. pose proof (trimmed_good _ _ _ _ G AB' S2 T) as G2. pose proof (trimmed_holds _ _ _ _ G AB' T) as H2. pose proof G2 as (_ & W2 & A2).
  assert (AP : forall r l w, In (r, (l, w)) m2 -> r < a \/ b < l).
  { intros r l w J. apply T in J. destruct (trimmed_from _ _ _ _ _ _ G AB' J) as (r0 & l0 & _ & Q). lia. }
  destruct (emplace_ok m2 b (a, v) S2) as (m3 & E3 & S3 & H3). { intros [l w] J. pose proof (AP _ _ _ J). pose proof (W2 _ _ _ J). lia. }
  rewrite E3. cbn [rbind].
  assert (G3 : good m3).
  { split; auto. split.
    - intros r l w J. apply H3 in J as [J|J]; [injection J as -> -> ->; lia|eauto].
    - intros r l w r' l' w' J J' R. apply H3 in J as [J|J]; apply H3 in J' as [J'|J'].
      + injection J as -> -> ->. injection J' as -> -> ->. lia.
      + injection J as -> -> ->. pose proof (AP _ _ _ J'). lia.
      + injection J' as -> -> ->. pose proof (AP _ _ _ J). pose proof (W2 _ _ _ J). lia.
      + eapply A2; eauto. }
  assert (Q3 : forall k w, holds m3 k w <-> a <= k <= b /\ w = v \/ ~ a <= k <= b /\ holds m k w).
  { intros k w. split.
    - intros (r & l & J & L). apply H3 in J as [J|J]; [injection J as -> -> ->; left; auto|]. right. destruct (proj1 (H2 k w)) as [X Y]; [exists r, l; auto|]. split; [lia|auto].
    - intros [[L ->]|[L X]]; [exists b, a; split; [apply H3; now left|auto]|]. destruct (proj2 (H2 k w)) as (r & l & J & L'); [split; [auto|lia]|]. exists r, l. split; auto. apply H3. now right. }
  destruct (merge_prev_ok m3 a b v G3 (proj2 (H3 _) (or_introl eq_refl))) as (m4 & l4 & E4 & G4 & I4 & L4 & _ & Q4). rewrite E4.
  destruct (merge_next_ok m4 l4 b v G4 I4) as [G5 Q5]. eexists; split; [reflexivity|]. split; auto.
  intros k w. rewrite Q5, Q4, Q3. unfold fills. split.
  - intros [[[X|X]|(-> & p & L & Hp & N)]|(-> & n & L & Hn & N)]; auto.
    + right. right. split; auto. left. exists p. apply Q3 in Hp as [?|[_ Hp]]; [lia|]. split; [auto|]. split; auto. intros j y Lj Hj. apply (N j y Lj). apply Q3. right. split; [lia|auto].
    + right. right. split; auto. right. exists n. split; auto. apply Q4 in Hn as [Hn|(_ & p & ? & _)]; [|lia]. apply Q3 in Hn as [?|[_ Hn]]; [lia|]. split; auto.
      intros j y Lj Hj. apply (N j y Lj). apply Q4. left. apply Q3. right. split; [lia|auto].
  - intros [X|[X|(-> & [(p & L & Hp & N)|(n & L & Hn & N)])]]; [left; left; now left|left; left; now right| |].
    + left. right. split; auto. exists p. split; auto. split; [apply Q3; right; split; [lia|auto]|]. intros j y Lj Hj. apply Q3 in Hj as [?|[_ Hj]]; [lia|]. now apply (N j y).
    + right. split; auto. exists n. split; auto. split; [apply Q4; left; apply Q3; right; split; [lia|auto]|]. intros j y Lj Hj. apply Q4 in Hj as [Hj|(_ & p & ? & _)]; [|lia].
      apply Q3 in Hj as [?|[_ Hj]]; [lia|]. now apply (N j y).
Qed.
End Proofs.
