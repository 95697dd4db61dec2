(** Hash streams over a stream that fails, and buffered streams (C81). *)
From Coq Require Import ZifyBool ZifyNat.
From Verif Require Import Common HashStreamModel HashStreamSpec HashStreamProofs HashStreamProps HashFailModel.

Lemma app_split {A} (p q r s : list A) : length p = length q -> p ++ r = q ++ s -> p = q /\ r = s.
Proof. revert q. induction p as [|x p IH]; intros [|y q] L E; cbn in *; try discriminate; auto. injection E as -> E. destruct (IH q); auto. subst. auto. Qed.
Lemma blocks_unique n d bs : 0 < n -> blocks_of n d bs -> forall bs', blocks_of n d bs' -> bs = bs'.
Proof.
  intros Hn. induction 1 as [|d N L|p d bs L N Bo IH]; intros bs' Bo'.
  - inversion Bo' as [|d' N' L'|p' d' bs2 L' N' Bo2 E]; subst; auto; [congruence|]. destruct p'; [cbn in *; lia|discriminate].
  - inversion Bo' as [|d' N' L' E|p' d' bs2 L' N' Bo2 E]; subst; auto; [congruence|].
    rewrite app_length in L. destruct d'; [congruence|cbn in *; lia].
  - inversion Bo' as [E|d' N' L' E|p' d' bs2 L' N' Bo2 E]; subst.
    + destruct p; [cbn in *; lia|discriminate].
    + rewrite app_length in L'. destruct d; [congruence|cbn in *; lia].
    + destruct (app_split p' p d' d) as [-> ->]; auto. f_equal; auto.
Qed.

Section Fail.
Context (H : bytes -> bytes) (h B : nat) (HL : forall x, length (H x) = h) (HB : h < B).
Notation stored_blocks := (stored_blocks H).

Section Device.
Context (dev : nat -> option nat).
(** While no call has failed: the calls are the full blocks of the data. *)
Definition sound (o : fout) (d : bytes) : Prop :=
  exists bs, Forall (fun p => length p = B - h) bs /\ ffile o = stored_blocks bs /\ d = concat bs ++ fv o /\ length (fv o) < B - h /\ fcalls o = length bs.
Lemma full_length bs : Forall (fun p : bytes => length p = B - h) bs -> length (concat bs) = length bs * (B - h).
Proof. induction 1 as [|p bs Hp Hbs IH]; cbn [concat length]; [reflexivity|]. rewrite app_length, Hp, IH. lia. Qed.

Lemma fwrite_sound fuel : forall o d buf, sound o d -> length buf < fuel ->
  (forall i, i * (B - h) < length (d ++ buf) -> dev i = None) ->
  exists o', fwrite_loop H h B dev fuel o buf = (o', Ok tt) /\ sound o' (d ++ buf).
Proof.
  induction fuel as [|fuel IH]; intros o d buf W L D; [lia|]. destruct W as (bs & F & Ef & Ed & Lv & Ec). cbn [fwrite_loop].
  replace (length (fv o) <=? B - h) with true by lia.
  set (c := Nat.min (B - h - length (fv o)) (length buf)). set (o1 := {| fv := fv o ++ firstn c buf; ffile := ffile o; fcalls := fcalls o |}).
  assert (W2 : exists o2, (if length (fv o1) =? B - h then fflush H dev o1 else (o1, Ok tt)) = (o2, Ok tt) /\ sound o2 (d ++ firstn c buf)).
  { destruct (Nat.eqb_spec (length (fv o1)) (B - h)) as [E|E].
    - cbn [o1 fv] in *. unfold fflush. cbn [o1 fv ffile fcalls]. destruct (fv o ++ firstn c buf) as [|x l] eqn:Ev; [cbn in E; lia|].
      rewrite D.
      2:{ rewrite Ec, Ed, !app_length, full_length by auto. pose proof (f_equal (@length _) Ev) as E2. rewrite app_length, firstn_length in E2.
          rewrite E in E2. lia. }
      eexists. split; [reflexivity|]. exists (bs ++ [x :: l]). split; [apply Forall_app; auto|]. cbn [ffile fv fcalls].
      split; [rewrite stored_app, stored_one, Ef; reflexivity|].
      split; [|cbn; rewrite app_length; cbn; lia]. rewrite concat_app. cbn [concat]. rewrite !app_nil_r. rewrite <- Ev, Ed, app_assoc. reflexivity.
    - eexists. split; [reflexivity|]. exists bs. split; [auto|]. split; [exact Ef|]. cbn [o1 fv fcalls] in *. split; [now rewrite Ed, app_assoc|].
      split; [|auto]. rewrite app_length, firstn_length in *. lia. }
  destruct W2 as (o2 & E2 & W2). cbv zeta. change ({| fv := fv o ++ firstn c buf; ffile := ffile o; fcalls := fcalls o |}) with o1. rewrite E2.
  rewrite skipn_length. destruct (Nat.eqb_spec (length buf - c) 0) as [E|E].
  - eexists. split; [reflexivity|]. rewrite firstn_all2 in W2 by lia. exact W2.
  - destruct (IH o2 _ (skipn c buf) W2) as (o' & E1 & W3).
    { rewrite skipn_length. assert (1 <= c) by (unfold c; lia). lia. }
    { rewrite <- app_assoc, firstn_skipn. exact D. }
    exists o'. split; [exact E1|]. now rewrite <- app_assoc, firstn_skipn in W3.
Qed.
Lemma fwrites_sound ws : forall o d, sound o d -> (forall i, i * (B - h) < length (d ++ concat ws) -> dev i = None) ->
  exists o', fwrites H h B dev o ws = (o', repeat (Ok tt) (length ws)) /\ sound o' (d ++ concat ws).
Proof.
  induction ws as [|w ws IH]; intros o d W D; cbn [fwrites concat length repeat].
  - exists o. split; [reflexivity|now rewrite app_nil_r].
  - cbn [concat] in D. rewrite app_assoc in D. destruct (fwrite_sound (S (S (length w))) o d w W) as (o1 & E & W1); [lia| |].
    { intros i Hi. apply D. rewrite app_length. lia. }
    unfold fwrite. rewrite E. destruct (IH o1 _ W1 D) as (o2 & E2 & W2). rewrite E2. exists o2. split; [reflexivity|]. now rewrite <- app_assoc in W2.
Qed.
Lemma sound_new : sound fout_new [].
Proof. exists []. cbn. split; [constructor|]. split; [reflexivity|]. split; [reflexivity|]. split; [lia|reflexivity]. Qed.

(** C81: with as many successful writes as there are blocks every call succeeds and the
    file is the one that is written without failures. *)
Theorem hash_out_enough ws : (forall i, i * (B - h) < length (concat ws) -> dev i = None) ->
  exists f, hwritten H h B ws = Ok f /\ fprogram H h B dev ws = (repeat (Ok tt) (length ws), Closed f).
Proof.
  intros D. destruct (fwrites_sound ws fout_new [] sound_new D) as (o & E & bs & F & Ef & Ed & Lv & Ec). cbn [app] in *.
  destruct (hwritten_ok H h B HL HB ws) as (bs' & E' & Bo). exists (stored_blocks bs'). split; [exact E'|].
  unfold fprogram. rewrite E. f_equal. unfold fclose, fflush.
  assert (bs' = bs ++ match fv o with [] => [] | v => [v] end) as ->.
  { apply (blocks_unique (B - h) (concat ws)); [lia|exact Bo|]. rewrite Ed. destruct (fv o) as [|x l] eqn:Ev.
    - rewrite !app_nil_r. clear - F HB. destruct bs as [|b bs] using rev_ind; [constructor|].
      apply Forall_app in F. destruct F as [F1 F2]. inversion F2; subst. rewrite concat_app. cbn [concat]. rewrite app_nil_r.
      apply (blocks_full h B); auto; [destruct b; [cbn in *; lia|discriminate]|lia].
    - apply (blocks_full h B); auto; [discriminate|lia]. }
  destruct (fv o) as [|x l] eqn:Ev.
  - now rewrite app_nil_r, Ef.
  - rewrite D.
    2:{ rewrite Ec, Ed, app_length, full_length by auto. cbn [length]. lia. }
    cbn [ffile]. now rewrite stored_app, stored_one, Ef.
Qed.

(** ** A stream that fails from the call [n] on *)
Context (n : nat) (Hok : forall i, i < n -> dev i = None) (Hfull : forall i, n <= i -> dev i <> None).
Definition broken (o : fout) (d : bytes) : Prop :=
  exists bs j r, length bs = n /\ Forall (fun p => length p = B - h) bs /\ ffile o = stored_blocks bs ++ j /\ d = concat bs ++ r /\ fv o <> [] /\ n <= fcalls o.
Lemma broken_more o d x : broken o d -> broken o (d ++ x).
Proof. intros (bs & j & r & Q1 & Q2 & Q3 & Q4 & Q5). exists bs, j, (r ++ x). rewrite app_assoc, <- Q4. auto. Qed.
Lemma broken_flush o d : broken o d -> broken (fst (fflush H dev o)) d /\ snd (fflush H dev o) = Throw IoError.
Proof.
  intros (bs & j & r & L & F & Ef & Ed & Nv & Lc). unfold fflush. destruct (fv o) as [|x l] eqn:Ev; [congruence|].
  specialize (Hfull _ Lc). destruct (dev (fcalls o)) as [k|]; [|congruence]. cbn [fst snd]. split; [|reflexivity].
  exists bs, (j ++ firstn k ((x :: l) ++ H (x :: l))), r. cbn [ffile fv fcalls]. rewrite Ef, app_assoc. repeat split; auto. discriminate.
Qed.
Lemma fwrite_broken fuel : forall o d buf, broken o d -> broken (fst (fwrite_loop H h B dev fuel o buf)) d.
Proof.
  induction fuel as [|fuel IH]; intros o d buf Q; cbn [fwrite_loop]; [exact Q|].
  set (c := if _ <=? _ then _ else _). set (o1 := {| fv := fv o ++ firstn c buf; ffile := ffile o; fcalls := fcalls o |}).
  assert (Q1 : broken o1 d).
  { destruct Q as (bs & j & r & Q1 & Q2 & Q3 & Q4 & Q5 & Q6). exists bs, j, r. cbn [o1 ffile fv fcalls]. repeat split; auto.
    intros X. apply app_eq_nil in X. tauto. }
  destruct (broken_flush o1 d Q1) as [Q2 Q3]. destruct (_ =? B - h).
  - destruct (fflush H dev o1) as [o2 r]. cbn [fst snd] in *. subst r. exact Q2.
  - destruct (length _ =? 0); [exact Q1|]. now apply IH.
Qed.
Lemma fwrite_full fuel : forall o d buf, sound o d -> fcalls o <= n -> length buf < fuel ->
  (sound (fst (fwrite_loop H h B dev fuel o buf)) (d ++ buf) /\ fcalls (fst (fwrite_loop H h B dev fuel o buf)) <= n) \/
  broken (fst (fwrite_loop H h B dev fuel o buf)) (d ++ buf).
Proof.
  induction fuel as [|fuel IH]; intros o d buf W Lc L; [lia|]. destruct W as (bs & F & Ef & Ed & Lv & Ec). cbn [fwrite_loop].
  replace (length (fv o) <=? B - h) with true by lia.
  set (c := Nat.min (B - h - length (fv o)) (length buf)). set (o1 := {| fv := fv o ++ firstn c buf; ffile := ffile o; fcalls := fcalls o |}). cbv zeta.
  change ({| fv := fv o ++ firstn c buf; ffile := ffile o; fcalls := fcalls o |}) with o1.
  assert (W2 : exists o2 r, (if length (fv o1) =? B - h then fflush H dev o1 else (o1, Ok tt)) = (o2, r) /\
    ((r = Ok tt /\ sound o2 (d ++ firstn c buf) /\ fcalls o2 <= n) \/ (r = Throw IoError /\ broken o2 (d ++ firstn c buf)))).
  { destruct (Nat.eqb_spec (length (fv o1)) (B - h)) as [E|E].
    - cbn [o1 fv] in *. unfold fflush. cbn [o1 fv ffile fcalls]. destruct (fv o ++ firstn c buf) as [|x l] eqn:Ev; [cbn in E; lia|].
      destruct (dev (fcalls o)) as [k|] eqn:Dk.
      + assert (fcalls o = n) as Ecn. { destruct (Nat.eq_dec (fcalls o) n); auto. rewrite Hok in Dk by lia. discriminate. }
        do 2 eexists. split; [reflexivity|]. right. split; [reflexivity|].
        exists bs, (firstn k ((x :: l) ++ H (x :: l))), (x :: l). cbn [ffile fv fcalls]. rewrite Ef. repeat split; auto; try lia; [|discriminate].
        now rewrite Ed, <- app_assoc, Ev.
      + assert (fcalls o < n) as Ecn. { destruct (Nat.lt_ge_cases (fcalls o) n) as [|G]; auto. now apply Hfull in G. }
        do 2 eexists. split; [reflexivity|]. left. split; [reflexivity|]. split; [|cbn [fcalls]; lia].
        exists (bs ++ [x :: l]). split; [apply Forall_app; auto|]. cbn [ffile fv fcalls].
        split; [rewrite stored_app, stored_one, Ef; reflexivity|].
        split; [|cbn; rewrite app_length; cbn; lia]. rewrite concat_app. cbn [concat]. rewrite !app_nil_r. rewrite <- Ev, Ed, app_assoc. reflexivity.
    - do 2 eexists. split; [reflexivity|]. left. split; [reflexivity|]. split; [|cbn [o1 fcalls]; auto].
      exists bs. split; [auto|]. split; [exact Ef|]. cbn [o1 fv fcalls] in *. split; [now rewrite Ed, app_assoc|].
      split; [|auto]. rewrite app_length, firstn_length in *. lia. }
  destruct W2 as (o2 & r & -> & [(-> & W2 & Lc2)|(-> & W2)]).
  - rewrite skipn_length. destruct (Nat.eqb_spec (length buf - c) 0) as [E|E].
    + left. rewrite firstn_all2 in W2 by lia. auto.
    + pose proof (IH o2 _ (skipn c buf) W2 Lc2) as I2. rewrite <- app_assoc, firstn_skipn in I2. apply I2.
      rewrite skipn_length. assert (1 <= c) by (unfold c; lia). lia.
  - right. cbn [fst]. apply (broken_more _ _ (skipn c buf)) in W2. now rewrite <- app_assoc, firstn_skipn in W2.
Qed.
Lemma fwrites_full ws : forall o d, (sound o d /\ fcalls o <= n) \/ broken o d ->
  (sound (fst (fwrites H h B dev o ws)) (d ++ concat ws) /\ fcalls (fst (fwrites H h B dev o ws)) <= n) \/ broken (fst (fwrites H h B dev o ws)) (d ++ concat ws).
Proof.
  induction ws as [|w ws IH]; intros o d I; cbn [fwrites concat].
  - now rewrite app_nil_r.
  - assert (I2 : (sound (fst (fwrite H h B dev o w)) (d ++ w) /\ fcalls (fst (fwrite H h B dev o w)) <= n) \/ broken (fst (fwrite H h B dev o w)) (d ++ w)).
    { destruct I as [[W L]|W]; [apply fwrite_full; auto|right]. apply broken_more. now apply fwrite_broken. }
    destruct (fwrite H h B dev o w) as [o1 r]. cbn [fst] in I2. pose proof (IH o1 _ I2) as I3. rewrite app_assoc.
    destruct (fwrites H h B dev o1 ws) as [o2 rs]. exact I3.
Qed.
(** C81: if the data does not fit, the program is terminated, whether or not the exceptions
    of Write are caught; the file has the blocks that fit and possibly a part of a write. *)
Theorem hash_out_full_refuted ws : n * (B - h) < length (concat ws) ->
  exists f bs j, snd (fprogram H h B dev ws) = Terminated f /\ f = stored_blocks bs ++ j /\
    length bs = n /\ concat bs = firstn (n * (B - h)) (concat ws).
Proof.
  intros L. destruct (fwrites_full ws fout_new []) as [[W Lc]|W].
  - left. split; [apply sound_new|cbn; lia].
  - (* the last block is pending *)
    unfold fprogram. destruct (fwrites H h B dev fout_new ws) as [o rs]. cbn [fst snd app] in *. destruct W as (bs & F & Ef & Ed & Lv & Ec).
    rewrite Ed, app_length, full_length in L by auto. assert (length bs = n) as Ln.
    { assert (length bs <= n) by lia. destruct (Nat.eq_dec (length bs) n); auto. assert (S (length bs) * (B - h) <= n * (B - h)) by (apply Nat.mul_le_mono_r; lia). lia. }
    unfold fclose, fflush. destruct (fv o) as [|x l] eqn:Ev; [cbn in L; lia|]. destruct (dev (fcalls o)) as [k|] eqn:Dk.
    2:{ exfalso. apply (Hfull (fcalls o)); [lia|auto]. }
    do 3 eexists. split; [reflexivity|]. cbn [ffile]. rewrite Ef. split; [reflexivity|]. split; [exact Ln|].
    rewrite Ed, firstn_app, full_length, Ln by auto. rewrite Nat.sub_diag. cbn [firstn]. rewrite app_nil_r, firstn_all2; [reflexivity|]. rewrite full_length by auto. lia.
  - unfold fprogram. destruct (fwrites H h B dev fout_new ws) as [o rs]. cbn [fst snd app] in *. destruct (broken_flush _ _ W) as [Wf Ws].
    unfold fclose. destruct (fflush H dev o) as [o1 r]. cbn [fst snd] in *. subst r. destruct Wf as (bs & j & r & Ln & F & Ef & Ed & _).
    exists (ffile o1), bs, j. split; [reflexivity|]. split; [exact Ef|]. split; [exact Ln|].
    rewrite Ed, firstn_app, full_length, Ln by auto. rewrite Nat.sub_diag. cbn [firstn]. rewrite app_nil_r, firstn_all2; [reflexivity|]. rewrite full_length by auto. lia.
Qed.
End Device.
End Fail.

(** ** Buffered streams *)
(** C81: the file has the bytes that were written, and reading any file through the buffer
    is reading it; nothing is detected. *)
Theorem buffered_write_exact B ws : 0 < B -> buffered_write B ws = Ok (concat ws).
Proof.
  intros HB. unfold buffered_write. destruct (hwritten_ok fake_hash 0 B (fun _ => eq_refl) HB ws) as (bs & -> & Bo). f_equal.
  unfold stored_blocks, fake_hash. induction Bo as [|d N L|p d bs L N Bo IH]; cbn [map concat]; rewrite ?app_nil_r; auto. now rewrite IH.
Qed.
Theorem buffered_read_exact B f os : 0 < B -> buffered_read B f os = srun f true os.
Proof.
  intros HB. unfold buffered_read. apply (hrun_ok fake_hash 0 B (fun _ => eq_refl) HB). apply R_new.
  remember (length f) as n eqn:E. assert (L : length f <= n) by lia. clear E. revert f L. induction n as [|n IH]; intros f L.
  - destruct f; [constructor|cbn in L; lia].
  - destruct f as [|x f]; [constructor|]. rewrite <- (firstn_skipn B (x :: f)) at 2. apply d_block; [discriminate|unfold fake_hash; now rewrite app_nil_r|].
    apply IH. rewrite skipn_length. cbn [length] in *. lia.
Qed.

(** ** Concrete cases *)
(** A single failure: the exception is caught and the stream is closed, or the write is
    repeated; in the file the data is followed by bytes that are refused. *)
Theorem hash_out_retry_refuted : exists dev, (forall i, i <> 0 -> dev i = None) /\
  (exists f, fprogram toy_hash 2 5 dev [[1; 2; 3]]%Z = ([Throw IoError], Closed f) /\
     hrun toy_hash 2 5 (hin_new f) [HRead 3; HEnd] = ([HGot [1; 2; 3]%Z], Throw Corruption)) /\
  (exists f, fprogram toy_hash 2 5 dev [[1; 2; 3]; [1; 2; 3]]%Z = ([Throw IoError; Ok tt], Closed f) /\
     hrun toy_hash 2 5 (hin_new f) [HRead 3; HRead 3] = ([HGot [1; 2; 3]%Z], Throw Corruption)).
Proof.
  exists (fun i => match i with 0 => Some 0 | _ => None end). split; [intros [|i]; congruence|]. split; eexists; split; vm_compute; reflexivity.
Qed.
Example hash_out_full_demo :
  fprogram toy_hash 2 5 (fun i => if i <? 1 then None else Some 1) [[1; 2]; [3; 4; 5; 6; 7]]%Z =
    ([Ok tt; Throw IoError], Terminated [1; 2; 3; 6; 3; 4; 4]%Z) /\
  fprogram toy_hash 2 5 (fun i => if i <? 1 then None else Some 0) [[1; 2]; [3; 4]]%Z = ([Ok tt; Ok tt], Terminated [1; 2; 3; 6; 3]%Z) /\
  fprogram toy_hash 2 5 (fun i => if i <? 2 then None else Some 0) [[1; 2]; [3; 4]]%Z = ([Ok tt; Ok tt], Closed [1; 2; 3; 6; 3; 4; 4; 1]%Z).
Proof. vm_compute. auto. Qed.
Example buffered_demo : buffered_write 3 [[1; 2]; [3; 4; 5; 6; 7]]%Z = Ok [1; 2; 3; 4; 5; 6; 7]%Z /\
  buffered_read 3 [1; 2; 3; 4; 5; 6; 7]%Z [HRead 4; HEnd; HRead 9; HEnd] = ([HGot [1; 2; 3; 4]; HIsEnd false; HGot [5; 6; 7]; HIsEnd true]%Z, Ok tt).
Proof. vm_compute. auto. Qed.
