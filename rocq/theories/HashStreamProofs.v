(** The hash streams refine sequences. *)
From Coq Require Import ZifyBool ZifyNat.
From Verif Require Import Common HashStreamModel HashStreamSpec.

Section Proofs.
Context (H : bytes -> bytes) (h B : nat) (HL : forall x, length (H x) = h) (HB : h < B).
Notation decodes := (decodes H B).
Notation stored_blocks := (stored_blocks H).

Lemma bytes_eqb_true a b : bytes_eqb a b = true <-> a = b.
Proof. unfold bytes_eqb. destruct (list_eq_dec Z.eq_dec a b); split; congruence. Qed.

(** ** Writing *)
Definition winv (o : hout) (d : bytes) : Prop :=
  exists bs, Forall (fun p => length p = B - h) bs /\ hfile o = stored_blocks bs /\ d = concat bs ++ hv o /\ length (hv o) < B - h.
Lemma stored_app a b : stored_blocks (a ++ b) = stored_blocks a ++ stored_blocks b.
Proof. unfold HashStreamSpec.stored_blocks. now rewrite map_app, concat_app. Qed.
Lemma stored_one p : stored_blocks [p] = p ++ H p.
Proof. unfold HashStreamSpec.stored_blocks. cbn. apply app_nil_r. Qed.

Lemma hwrite_loop_ok fuel : forall o d buf, winv o d -> length buf < fuel ->
  exists o', hwrite_loop H h B fuel o buf = Ok o' /\ winv o' (d ++ buf).
Proof.
  induction fuel as [|fuel IH]; intros o d buf W L; [lia|]. destruct W as (bs & F & Ef & Ed & Lv). cbn [hwrite_loop].
  set (c := Nat.min (B - h - length (hv o)) (length buf)). set (o1 := {| hv := hv o ++ firstn c buf; hfile := hfile o |}).
  assert (W2 : winv (if length (hv o1) =? B - h then hflush H o1 else o1) (d ++ firstn c buf)).
  { destruct (Nat.eqb_spec (length (hv o1)) (B - h)) as [E|E].
    - cbn [o1 hv] in *. unfold hflush. cbn [o1 hv hfile]. destruct (hv o ++ firstn c buf) as [|x l] eqn:Ev; [cbn in E; lia|].
      exists (bs ++ [x :: l]). split; [apply Forall_app; auto|]. split; [cbn [hfile]; rewrite stored_app, stored_one, Ef; reflexivity|].
      split; [|cbn; lia]. cbn [hv]. rewrite concat_app. cbn [concat]. rewrite !app_nil_r. rewrite <- Ev, Ed, app_assoc. reflexivity.
    - exists bs. split; [auto|]. split; [exact Ef|]. cbn [o1 hv] in *. split; [now rewrite Ed, app_assoc|].
      rewrite app_length, firstn_length in *. lia. }
  rewrite skipn_length. destruct (Nat.eqb_spec (length buf - c) 0) as [E|E].
  - eexists. split; [reflexivity|]. rewrite firstn_all2 in W2 by lia. exact W2.
  - destruct (IH _ _ (skipn c buf) W2) as (o' & E1 & W3).
    { rewrite skipn_length. assert (1 <= c) by (unfold c; lia). lia. }
    exists o'. split; [exact E1|]. now rewrite <- app_assoc, firstn_skipn in W3.
Qed.
Lemma hwrites_ok ws : forall o d, winv o d -> exists o', hwrites H h B o ws = Ok o' /\ winv o' (d ++ concat ws).
Proof.
  induction ws as [|w ws IH]; intros o d W; cbn [hwrites concat].
  - exists o. split; [reflexivity|now rewrite app_nil_r].
  - destruct (hwrite_loop_ok (S (length w)) o d w W) as (o1 & E & W1); [lia|]. unfold hwrite. rewrite E. cbn [rbind].
    destruct (IH _ _ W1) as (o2 & E2 & W2). exists o2. split; [exact E2|]. now rewrite app_assoc.
Qed.
Lemma blocks_full bs : forall d, Forall (fun p => length p = B - h) bs -> d <> [] -> length d <= B - h -> blocks_of (B - h) (concat bs ++ d) (bs ++ [d]).
Proof.
  induction bs as [|b bs IH]; intros d F N L; cbn [concat app].
  - now apply bo_last.
  - inversion F; subst. rewrite <- app_assoc. apply bo_more; auto. intros E. apply app_eq_nil in E. tauto.
Qed.
Lemma hwritten_ok ws : exists bs, hwritten H h B ws = Ok (stored_blocks bs) /\ blocks_of (B - h) (concat ws) bs.
Proof.
  destruct (hwrites_ok ws hout_new []) as (o & E & bs & F & Ef & Ed & Lv).
  { exists []. cbn. split; [constructor|]. split; [reflexivity|]. split; [reflexivity|lia]. }
  unfold hwritten. rewrite E. cbn [rbind app] in *. rewrite Ed. unfold hflush. destruct (hv o) as [|x l] eqn:Ev.
  - exists bs. split; [now rewrite Ef|]. rewrite app_nil_r. destruct bs as [|b bs] using rev_ind; [constructor|].
    apply Forall_app in F. destruct F as [F1 F2]. inversion F2; subst. rewrite concat_app. cbn [concat]. rewrite app_nil_r.
    apply blocks_full; auto; [destruct b; [cbn in *; lia|discriminate]|lia].
  - exists (bs ++ [x :: l]). split; [cbn [hfile]; now rewrite stored_app, stored_one, Ef|]. apply blocks_full; auto; [discriminate|lia].
Qed.

(** ** What a file means *)
Lemma split_unique (p q : bytes) : p ++ H p = q ++ H q -> p = q.
Proof.
  intros E. assert (L : length p = length q) by (apply (f_equal (@length Z)) in E; rewrite !app_length, !HL in E; lia).
  revert L E. generalize (H p) (H q). intros a b. revert q. induction p as [|x p IH]; intros [|y q] L E; cbn in *; try lia; auto.
  injection E as -> E. f_equal. eapply IH; eauto.
Qed.
Lemma decodes_fun f d e : decodes f d e -> forall d' e', decodes f d' e' -> d' = d /\ e' = e.
Proof.
  induction 1 as [|f p d e N E D IH|f N Nb]; intros d' e' D'; inversion D'; subst; auto; try congruence.
  - match goal with X : firstn B f = ?q ++ H ?q, Y : decodes _ ?d1 e' |- _ => rewrite E in X; apply split_unique in X; subst q; destruct (IH _ _ Y) as [-> ->] end. auto.
Qed.
Lemma decodes_total : forall n f, length f <= n -> exists d e, decodes f d e.
Proof.
  induction n as [|n IH]; intros f L.
  - destruct f; [|cbn in L; lia]. exists [], true. constructor.
  - destruct f as [|x f]; [exists [], true; constructor|].
    set (c := firstn B (x :: f)). set (p := firstn (length c - h) c).
    destruct (list_eq_dec Z.eq_dec c (p ++ H p)) as [E|E].
    + destruct (IH (skipn B (x :: f))) as (d & e & D); [rewrite skipn_length; lia|]. exists (p ++ d), e. apply d_block; auto. discriminate.
    + exists [], false. apply d_bad; [discriminate|]. intros q Eq. fold c in Eq. apply E. rewrite Eq.
      assert (p = q) as ->; [|reflexivity]. unfold p. rewrite Eq, app_length, HL. replace (length q + h - h) with (length q) by lia.
      rewrite firstn_app, Nat.sub_diag, firstn_all. cbn. apply app_nil_r.
Qed.
Lemma decodes_prefix ps : forall r d e, Forall (fun p => length p = B - h) ps -> decodes r d e -> decodes (stored_blocks ps ++ r) (concat ps ++ d) e.
Proof.
  induction ps as [|p ps IH]; intros r d e F D; [exact D|]. inversion F as [|? ? Lp Fp]; subst.
  change (p :: ps) with ([p] ++ ps). rewrite stored_app, stored_one. rewrite concat_app. cbn [concat]. rewrite app_nil_r, <- !app_assoc.
  assert (L : length (p ++ H p) = B) by (rewrite app_length, HL; lia).
  rewrite app_assoc. apply d_block.
  - intros E. apply (f_equal (@length Z)) in E. rewrite app_length in E. cbn in E. lia.
  - rewrite firstn_app, L, Nat.sub_diag. cbn [firstn]. rewrite app_nil_r. apply firstn_all2. lia.
  - rewrite skipn_app, L, Nat.sub_diag. rewrite (skipn_all2 (p ++ H p)) by lia. cbn [app skipn]. apply IH; auto.
Qed.
Lemma decodes_stored d bs : blocks_of (B - h) d bs -> decodes (stored_blocks bs) d true.
Proof.
  induction 1 as [|d N L|p d bs L N Bo IH].
  - constructor.
  - rewrite stored_one. replace (decodes (d ++ H d) d true) with (decodes (d ++ H d) (d ++ []) true) by now rewrite app_nil_r.
    apply d_block.
    + destruct d; [congruence|discriminate].
    + apply firstn_all2. rewrite app_length, HL. lia.
    + rewrite skipn_all2 by (rewrite app_length, HL; lia). constructor.
  - change (p :: bs) with ([p] ++ bs). rewrite stored_app. replace (p ++ d) with (concat [p] ++ d) by (cbn; now rewrite app_nil_r). apply decodes_prefix; [auto|exact IH].
Qed.

(** ** Reading *)
Definition R (s : hin) (d : bytes) (e : bool) : Prop :=
  exists i d2, ix s = Some i /\ i <= length (block s) /\ decodes (rest s) d2 e /\ d = skipn i (block s) ++ d2.
Lemma skipn_nil_len {A} n (l : list A) : skipn n l = [] -> length l <= n.
Proof. intros E. apply (f_equal (@length A)) in E. rewrite skipn_length in E. cbn in E. lia. Qed.

Lemma skipn_add {A} i : forall j (l : list A), skipn j (skipn i l) = skipn (i + j) l.
Proof. induction i as [|i IH]; intros j l; [reflexivity|]. destruct l; cbn [skipn plus]; [apply skipn_nil|apply IH]. Qed.

Lemma hend_ok s d e : R s d e ->
  match d with
  | [] => if e then exists s1, hend H h B s = (s1, Ok true) /\ R s1 [] true else exists s1, hend H h B s = (s1, Throw Corruption)
  | _ => exists s1, hend H h B s = (s1, Ok false) /\ R s1 d e /\ (ix s = Some (length (block s)) -> length (rest s1) < length (rest s))
  end.
Proof.
  intros (i & d2 & Ei & Li & D & Ed). unfold hend, hpeek. rewrite Ei. destruct (Nat.eqb_spec i (length (block s))) as [E|E].
  - subst i. rewrite skipn_all in Ed. cbn [app] in Ed. subst d2. inversion D as [E0|f p d3 e3 N Ep D3 Ef|f N Nb Ef]; subst.
    + rewrite <- E0 in *. rewrite firstn_nil, skipn_nil. cbn. eexists. split; [reflexivity|]. exists 0, []. cbn. auto.
    + rewrite Ep. rewrite app_length, HL. destruct (Nat.eqb_spec (length p + h) 0) as [Z0|Z0].
      { exfalso. assert (L : length (firstn B (rest s)) = 0) by (rewrite Ep, app_length, HL; lia). rewrite firstn_length in L. destruct (rest s); [congruence|cbn in L; lia]. }
      destruct (Nat.ltb_spec (length p + h) h) as [?|_]; [lia|]. replace (length p + h - h) with (length p) by lia.
      rewrite firstn_app, Nat.sub_diag, firstn_all, skipn_app, Nat.sub_diag, skipn_all. cbn [firstn skipn app]. rewrite app_nil_r.
      replace (bytes_eqb (H p) (H p)) with true by (symmetry; now apply bytes_eqb_true). cbn [ix block rest].
      destruct p as [|x p].
      * assert (Er : skipn B (rest s) = []).
        { apply skipn_all2. apply (f_equal (@length Z)) in Ep. cbn in Ep. rewrite HL, firstn_length in Ep. lia. }
        rewrite Er in *. inversion D3; subst; try congruence. cbn. eexists. split; [reflexivity|]. exists 0, []. cbn. auto.
      * cbn [app length]. cbn [Nat.eqb]. eexists. split; [reflexivity|]. split.
        -- exists 0, d3. cbn [ix block rest skipn]. split; [auto|]. split; [lia|]. auto.
        -- intros _. cbn [rest]. rewrite skipn_length. destruct (rest s); [congruence|cbn [length]; lia].
    + destruct (Nat.eqb_spec (length (firstn B (rest s))) 0) as [Z0|Z0].
      { exfalso. rewrite firstn_length in Z0. destruct (rest s); [congruence|cbn in Z0; lia]. }
      destruct (Nat.ltb_spec (length (firstn B (rest s))) h) as [?|Lh]; [eexists; reflexivity|].
      set (c := firstn B (rest s)) in *. destruct (bytes_eqb (H (firstn (length c - h) c)) (skipn (length c - h) c)) eqn:Eb; [|eexists; reflexivity].
      apply bytes_eqb_true in Eb. exfalso. apply (Nb (firstn (length c - h) c)). now rewrite Eb, firstn_skipn.
  - rewrite Ei. destruct (Nat.eqb_spec i (length (block s))) as [?|_]; [contradiction|]. destruct d as [|x d].
    + exfalso. symmetry in Ed. apply app_eq_nil in Ed. destruct Ed as [Ed _]. apply skipn_nil_len in Ed. lia.
    + exists s. split; [reflexivity|]. split; [exists i, d2; auto|]. intros X. injection X as ->. contradiction.
Qed.

Lemma hread_loop_ok fuel : forall s d e got n, R s d e -> length got <= n -> length (rest s) + 1 < fuel ->
  let m := n - length got in
  if m <=? length d then exists s1, hread_loop H h B fuel s got n = (s1, Ok (got ++ firstn m d)) /\ R s1 (skipn m d) e
  else if e then exists s1, hread_loop H h B fuel s got n = (s1, Ok (got ++ d)) /\ R s1 [] true
  else exists s1, hread_loop H h B fuel s got n = (s1, Throw Corruption).
Proof.
  induction fuel as [|fuel IH]; intros s d e got n Hr Lg Lf; [lia|]. destruct Hr as (i & d2 & Ei & Li & D & Ed). cbn [hread_loop]. unfold hflushbuf. rewrite Ei.
  set (m := n - length got). set (w := Nat.min (length (block s) - i) m). cbv zeta. rewrite app_length, firstn_length, skipn_length.
  set (s1 := {| rest := rest s; block := block s; ix := Some (i + w) |}).
  assert (R1 : R s1 (skipn w d) e).
  { exists (i + w), d2. cbn [s1 ix block rest]. split; [auto|]. split; [lia|]. split; [auto|]. rewrite Ed, skipn_app, skipn_length. replace (w - (length (block s) - i)) with 0 by lia. cbn [skipn].
    f_equal. apply skipn_add. }
  assert (Ew : firstn w (skipn i (block s)) = firstn w d).
  { rewrite Ed, firstn_app, skipn_length. replace (w - (length (block s) - i)) with 0 by lia. cbn. now rewrite app_nil_r. }
  rewrite Ew. assert (Ld : length d = length (block s) - i + length d2) by (rewrite Ed, app_length, skipn_length; reflexivity).
  destruct (Nat.eqb_spec (length got + Nat.min w (length (block s) - i)) n) as [E|E].
  - assert (w = m) by lia. replace (m <=? length d) with true by lia. exists s1. subst w. rewrite H0 in *. auto.
  - assert (Wi : w = length (block s) - i) by lia. pose proof (hend_ok s1 _ _ R1) as He.
    assert (Dw : d = firstn w d ++ skipn w d) by now rewrite firstn_skipn.
    destruct (skipn w d) as [|x l] eqn:Es.
    + apply skipn_nil_len in Es. replace (m <=? length d) with false by lia. destruct e.
      * destruct He as (s2 & -> & R2). exists s2. split; [|exact R2]. now rewrite (firstn_all2 d) by lia.
      * destruct He as (s2 & ->). eauto.
    + destruct He as (s2 & -> & R2 & Lr). specialize (Lr ltac:(cbn; f_equal; lia)). cbn [s1 rest] in Lr.
      assert (Lw : length (firstn w d) = w) by (rewrite firstn_length; lia).
      specialize (IH s2 (x :: l) e (got ++ firstn w d) n R2 ltac:(rewrite app_length; lia) ltac:(lia)). cbv zeta in IH. rewrite app_length, Lw in IH.
      replace (n - (length got + w)) with (m - w) in IH by lia. rewrite <- Es in IH. rewrite skipn_length in IH.
      replace (m - w <=? length d - w) with (m <=? length d) in IH by lia.
      assert (F1 : forall k, w <= k -> firstn w d ++ firstn (k - w) (skipn w d) = firstn k d).
      { intros k Lk. rewrite <- (firstn_skipn w d) at 3. rewrite firstn_app, Lw. rewrite (firstn_all2 (firstn w d)) by lia. reflexivity. }
      assert (F2 : skipn (m - w) (skipn w d) = skipn m d).
      { rewrite <- (firstn_skipn w d) at 2. rewrite skipn_app, Lw, (skipn_all2 (firstn w d)) by lia. reflexivity. }
      destruct (m <=? length d) eqn:Em.
      * destruct IH as (s3 & -> & R3). exists s3. rewrite <- app_assoc, F1 by lia. rewrite F2 in R3. auto.
      * destruct e; [|exact IH]. destruct IH as (s3 & -> & R3). exists s3. rewrite <- app_assoc, firstn_skipn. auto.
Qed.

Lemma hstep_ok s d e o : R s d e ->
  match sstep d e o with
  | Some (b, d1) => exists s1, hstep H h B s o = (s1, Ok b) /\ R s1 d1 e
  | None => exists s1, hstep H h B s o = (s1, Throw Corruption)
  end.
Proof.
  intros Hr. destruct o as [n|]; cbn [sstep hstep].
  - pose proof (hread_loop_ok (S (S (length (rest s)))) s d e [] n Hr ltac:(cbn; lia) ltac:(lia)) as L. cbv zeta in L. cbn [length app] in L. rewrite Nat.sub_0_r in L. unfold hread.
    destruct (n <=? length d); [destruct L as (s1 & -> & R1); eauto|]. destruct e; [destruct L as (s1 & -> & R1); eauto|destruct L as (s1 & ->); eauto].
  - pose proof (hend_ok s d e Hr) as L. destruct d as [|x d]; [destruct e|].
    + destruct L as (s1 & -> & R1); eauto.
    + destruct L as (s1 & ->); eauto.
    + destruct L as (s1 & -> & R1 & _); eauto.
Qed.
Lemma hrun_ok os : forall s d e, R s d e -> hrun H h B s os = srun d e os.
Proof.
  induction os as [|o os IH]; intros s d e Hr; [reflexivity|]. cbn [hrun srun]. pose proof (hstep_ok s d e o Hr) as L.
  destruct (sstep d e o) as [[b d1]|]; [destruct L as (s1 & -> & R1); now rewrite (IH _ _ _ R1)|destruct L as (s1 & ->); reflexivity].
Qed.
Lemma R_new f d e : decodes f d e -> R (hin_new f) d e.
Proof. intros D. exists 0, d. cbn. auto. Qed.
End Proofs.
