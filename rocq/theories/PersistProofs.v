(** The files of PersistentObject: reading through the hash stream is reading the bytes. *)
From Coq Require Import ZifyBool ZifyNat.
From Verif Require Import Common Int2ArrayModel CodecModel CodecSpec CodecProofs CodecProps VtsModel VtsSpec VtsEvolve VtsProps.
From Verif Require Import HashStreamModel HashStreamSpec HashStreamProofs HashStreamProps StreamRel VtsLocal AStoreModel AStoreSpec PersistModel PersistSpec.
Local Open Scope Z_scope.

(** ** Any stream *)
Section Object.
Context {S1 S2 : Type} (raw1 : nat -> S1 -> res (bytes * S1)) (raw2 : nat -> S2 -> res (bytes * S2)) (size1 : S1 -> nat) (size2 : S2 -> nat).
Context (RS : nat -> S1 -> S2 -> Prop) (J : exn -> outcome -> Prop).
Context (RS_le : forall k k' s1 s2, RS k s1 s2 -> (k <= k')%nat -> RS k' s1 s2).
Context (J_done : forall e o, J e Done -> J e o) (J_refl : forall e, J e (Failed e)).
Context (raw_ok : forall n k s1 s2, RS k s1 s2 -> sres J RS (k - n) (raw1 n s1) (raw2 n s2)).
Context (raw_len : forall n k s1 s2 x, RS k s1 s2 -> raw1 n s1 = Ok x -> (n <= k)%nat).
Context (size_ok : forall k s1 s2, RS k s1 s2 -> exists k', (k' <= k)%nat /\ RS k' s1 s2 /\ (k' <= size1 s1)%nat /\ (k' <= size2 s2)%nat).
Lemma read_object_comp E sch rename t hd lim K : comp RS J K (read_object E sch rename t hd lim raw1 size1) (read_object E sch rename t hd lim raw2 size2).
Proof.
  intros k s1 s2 L R. unfold read_object. eapply sres_bind; [exact J_done| |].
  - unfold read_header. eapply sres_bind; [exact J_done| |].
    + eapply (read_comp raw1 raw2 RS J RS_le J_done J_refl raw_ok (limited E lim) k); eauto. apply plain_comp; auto.
    + intros v t1 t2 R1. destruct v as [| | | | | | | |l]; try reflexivity. destruct l as [|a [|b [|c l]]]; try (destruct a; reflexivity); try reflexivity.
      * destruct a; try reflexivity. destruct b; try reflexivity. destruct (negb _); [apply sres_throw; auto|]. destruct (_ <? _); [apply sres_throw; auto|].
        destruct (_ <? _); [apply sres_throw; auto|]. apply sres_ok. exact R1.
      * destruct a; try reflexivity. destruct b; reflexivity.
  - intros u t1 t2 R1. eapply (vread_from_comp raw1 raw2 size1 size2 RS J); eauto.
Qed.
End Object.

(** ** Bytes *)
Section Bytes.
Context (E : env) (N : schema) (rename : nat -> fname -> fname) (t : ty) (hd : header) (lim : Z).
Definition bread := read_object E N rename t hd lim get_raw (@length Z).
Lemma bread_prefix a b v : bread (a ++ b) = Ok (v, []) -> b <> [] -> bread a = Throw EndOfFile.
Proof.
  intros Rd Nb. assert (SZ : forall k s1 s2, longer b k s1 s2 -> exists k', (k' <= k)%nat /\ longer b k' s1 s2 /\ (k' <= length s1)%nat /\ (k' <= length s2)%nat).
  { intros k s1 s2 [-> L]. exists (length s1). rewrite app_length. repeat split; auto; lia. }
  pose proof (read_object_comp get_raw get_raw (@length Z) (@length Z) (longer b) eof_or_same (longer_le b) eof_done eof_refl (longer_raw b) (longer_len b) SZ E N rename t hd lim (length a) (length a) a (a ++ b) (Nat.le_refl _) (conj eq_refl (Nat.le_refl _))) as C.
  fold bread in C. rewrite Rd in C. destruct (bread a) as [[w r]|e|]; cbn [sres ended] in C.
  - destruct C as (r2 & C & [-> _]). injection C as _ C. symmetry in C. apply app_eq_nil in C as [_ C]. contradiction.
  - destruct C as [->|C]; [reflexivity|discriminate].
  - discriminate.
Qed.
Lemma bread_empty : bread [] = Throw EndOfFile.
Proof. reflexivity. Qed.
End Bytes.

(** ** The hash stream *)
Section Hash.
Context (H : bytes -> bytes) (h B : nat) (HL : forall x, length (H x) = h) (HB : (h < B)%nat).
Notation R := (HashStreamProofs.R H B). Notation decodes := (decodes H B). Notation hraw := (hraw H h B).
Local Open Scope nat_scope.

Lemma skipn_skipn' {A} i (x : list A) : skipn (i * B) (skipn B x) = skipn (S i * B) x.
Proof.
  assert (K : forall n m (l : list A), skipn n (skipn m l) = skipn (m + n) l).
  { intros n m. revert n. induction m as [|m IH]; intros n l; [reflexivity|]. destruct l; cbn; [apply skipn_nil|apply IH]. }
  rewrite K. f_equal.
Qed.
Lemma hpeek_rest (Q : bytes -> Prop) s : (forall f, Q f -> Q (skipn B f)) -> Q (rest s) -> Q (rest (fst (hpeek H h B s))).
Proof.
  intros HQ Hs. unfold hpeek. destruct (ix s) as [i|]; [|exact Hs]. destruct (i =? length (block s)); [|exact Hs].
  destruct (length (firstn B (rest s)) =? 0); [now apply HQ|]. destruct (length (firstn B (rest s)) <? h); [now apply HQ|]. destruct (bytes_eqb _ _); now apply HQ.
Qed.
Lemma hend_rest (Q : bytes -> Prop) s : (forall f, Q f -> Q (skipn B f)) -> Q (rest s) -> Q (rest (fst (hend H h B s))).
Proof. intros HQ Hs. unfold hend. pose proof (hpeek_rest Q s HQ Hs) as K. destruct (hpeek H h B s) as [s1 [u|e|]]; exact K. Qed.
Lemma hread_rest (Q : bytes -> Prop) : (forall f, Q f -> Q (skipn B f)) -> forall fuel s got n, Q (rest s) -> Q (rest (fst (hread_loop H h B fuel s got n))).
Proof.
  intros HQ. induction fuel as [|fuel IH]; intros s got n Hs; cbn [hread_loop]; [exact Hs|]. unfold hflushbuf. destruct (ix s) as [i|]; [|exact Hs].
  set (s1 := {| rest := rest s; block := block s; ix := Some (i + Nat.min (length (block s) - i) (n - length got)) |}).
  destruct (_ =? n); [exact Hs|]. pose proof (hend_rest Q s1 HQ Hs) as K. destruct (hend H h B s1) as [s2 [[|]|e|]]; try exact K. now apply IH.
Qed.

(** A stream with the data [d] left, after which the file ends, or not ([e]). *)
Definition RH (e : bool) (Q : bytes -> Prop) (k : nat) (s : hin) (d : bytes) : Prop := R s d e /\ Q (rest s) /\ length d <= k.
Definition JH (e : bool) (x : exn) (o : outcome) : Prop := o = Failed x \/ (e = false /\ x = Corruption /\ o = Failed EndOfFile).
Lemma RH_le e Q k k' s d : RH e Q k s d -> k <= k' -> RH e Q k' s d.
Proof. intros (H1 & H2 & H3) L. repeat split; auto. lia. Qed.
Lemma JH_done e x o : JH e x Done -> JH e x o.
Proof. intros [K|(_ & _ & K)]; discriminate. Qed.
Lemma JH_refl e x : JH e x (Failed x).
Proof. now left. Qed.
Lemma hraw_cases e n s d : R s d e ->
  if n <=? length d then exists s1, hread H h B s n = (s1, Ok (firstn n d)) /\ R s1 (skipn n d) e
  else if e then exists s1, hread H h B s n = (s1, Ok d) else exists s1, hread H h B s n = (s1, Throw Corruption).
Proof.
  intros Hr. pose proof (hread_loop_ok H h B HL HB (S (S (length (rest s)))) s d e [] n Hr ltac:(cbn; lia) ltac:(lia)) as L. cbv zeta in L. cbn [length app] in L. rewrite Nat.sub_0_r in L. unfold hread.
  destruct (n <=? length d); [exact L|]. destruct e; [destruct L as (s1 & L & _); eauto|exact L].
Qed.
Lemma hraw_ok e (Q : bytes -> Prop) : (forall f, Q f -> Q (skipn B f)) -> forall n k s d, RH e Q k s d -> sres (JH e) (RH e Q) (k - n) (hraw n s) (get_raw n d).
Proof.
  intros HQ n k s d (Hr & Hq & L). unfold PersistModel.hraw, get_raw. pose proof (hraw_cases e n s d Hr) as C.
  assert (Hq1 : Q (rest (fst (hread H h B s n)))) by (unfold hread; apply hread_rest; auto).
  destruct (Nat.leb_spec n (length d)) as [Ln|Ln].
  - destruct C as (s1 & C & R1). rewrite C in *. rewrite firstn_length. replace (Nat.min n (length d) <? n) with false by lia. replace (length d <? n) with false by lia.
    eexists. split; [reflexivity|]. split; [exact R1|]. split; [exact Hq1|]. rewrite skipn_length. lia.
  - replace (length d <? n) with true by lia. destruct e; destruct C as (s1 & C); rewrite C.
    + replace (length d <? n) with true by lia. now left.
    + right. auto.
Qed.
Lemma hraw_len e Q n k s d x : RH e Q k s d -> hraw n s = Ok x -> n <= k.
Proof.
  intros (Hr & _ & L). unfold PersistModel.hraw. pose proof (hraw_cases e n s d Hr) as C. destruct (Nat.leb_spec n (length d)) as [Ln|Ln]; [lia|].
  destruct e; destruct C as (s1 & C); rewrite C; [|discriminate]. replace (length d <? n) with true by lia. discriminate.
Qed.
Lemma decodes_len f d e : decodes f d e -> length d <= length f.
Proof.
  induction 1 as [|f p d e N Ef D IH|f N Nb]; cbn; auto; [|lia]. rewrite app_length. apply (f_equal (@length Z)) in Ef. rewrite firstn_length, app_length, HL in Ef. rewrite skipn_length in IH. lia.
Qed.
Lemma hsize_ok e Q k s d : RH e Q k s d -> exists k', k' <= k /\ RH e Q k' s d /\ k' <= hsize s /\ k' <= length d.
Proof.
  intros (Hr & Hq & L). exists (length d). split; auto. split; [split; auto|]. split; auto. destruct Hr as (i & d2 & _ & _ & D & ->). apply decodes_len in D.
  rewrite app_length, skipn_length. unfold hsize. lia.
Qed.

Section File.
Context (E : env) (N : schema) (rename : nat -> fname -> fname) (t : ty) (hd : header) (lim : Z).
Notation file_read := (file_read E N rename t hd lim H h B). Notation bread := (bread E N rename t hd lim).
Lemma file_read_bytes f d e (Q : bytes -> Prop) : decodes f d e -> (forall f, Q f -> Q (skipn B f)) -> Q f ->
  match bread d with
  | Ok (v, r) => exists s, read_object E N rename t hd lim hraw hsize (hin_new f) = Ok (v, s) /\ R s r e /\ Q (rest s)
  | Throw x => (e = false /\ x = EndOfFile /\ file_read f = Throw Corruption) \/ file_read f = Throw x
  | UB => file_read f = UB
  end.
Proof.
  intros D HQ Hq. assert (R0 : RH e Q (length d) (hin_new f) d) by (split; [now apply R_new|split; auto]).
  pose proof (read_object_comp hraw get_raw hsize (@length Z) (RH e Q) (JH e) (RH_le e Q) (JH_done e) (JH_refl e) (hraw_ok e Q HQ) (hraw_len e Q) (hsize_ok e Q) E N rename t hd lim (length d) (length d) _ _ (Nat.le_refl _) R0) as C.
  fold bread in C. unfold PersistModel.file_read. destruct (read_object E N rename t hd lim hraw hsize (hin_new f)) as [[v s]|x|]; cbn [sres rbind] in *.
  - destruct C as (r & -> & R1 & Q1 & _). eauto.
  - destruct C as [C|(-> & -> & C)]; destruct (bread d) as [[v r]|y|]; cbn [ended] in C; try discriminate; injection C as ->; [now right|left; auto].
  - rewrite C. reflexivity.
Qed.
(** A file whose data are cut short is refused. *)
Lemma file_read_prefix f d d' e x : decodes f d e -> bread (d ++ d') = Ok (x, []) -> d' <> [] ->
  file_read f = Throw EndOfFile \/ (e = false /\ file_read f = Throw Corruption).
Proof.
  intros D Rd Nd. pose proof (file_read_bytes f d e (fun _ => True) D (fun _ _ => Logic.I) Logic.I) as C. rewrite (bread_prefix E N rename t hd lim d d' x Rd Nd) in C.
  destruct C as [(He & _ & C)|C]; auto.
Qed.
(** The blocks of data are read to the end of the file. *)
Definition block_file (f : bytes) : Prop := exists d bs, f = stored_blocks H bs /\ blocks_of (B - h) d bs.
Lemma block_file_skip f : block_file f -> block_file (skipn B f).
Proof.
  intros (d & bs & -> & Bo). inversion Bo as [|d' Nd Ld|p d' bs' Lp Nd Bo']; subst.
  - exists [], []. split; [apply skipn_nil|constructor].
  - exists [], []. split; [|constructor]. rewrite stored_one. apply skipn_all2. rewrite app_length, HL. lia.
  - exists d', bs'. split; auto. change (p :: bs') with ([p] ++ bs'). rewrite stored_app, stored_one. rewrite skipn_app, app_length, HL.
    rewrite (skipn_all2 (p ++ H p)) by (rewrite app_length, HL; lia). replace (B - (length p + h)) with 0 by lia. reflexivity.
Qed.
Lemma file_read_stored d bs v : blocks_of (B - h) d bs -> bread d = Ok (v, []) -> file_read (stored_blocks H bs) = Ok (v, length (stored_blocks H bs)).
Proof.
  intros Bo Rd. assert (D : decodes (stored_blocks H bs) d true) by (now apply (decodes_stored H h)).
  assert (Hq : block_file (stored_blocks H bs)) by (exists d, bs; auto).
  pose proof (file_read_bytes _ _ _ block_file D block_file_skip Hq) as C. rewrite Rd in C.
  destruct C as (s & C & R1 & (d2 & bs2 & Er & Bo2)). unfold PersistModel.file_read. rewrite C. cbn [rbind].
  destruct R1 as (i & d3 & _ & _ & D3 & Ed). symmetry in Ed. apply app_eq_nil in Ed as [_ ->]. rewrite Er in *.
  edestruct (decodes_fun H h B HL HB) with (1 := D3) (d' := d2) (e' := true) as [-> _]; [now apply (decodes_stored H h)|].
  assert (bs2 = []) as ->.
  { remember (@nil Z) as dd eqn:Edd in Bo2. destruct Bo2 as [|d1 Nd|p d1 bs1 Lp Nd Bo1]; auto; [congruence|]. apply app_eq_nil in Edd as [_ Edd]. congruence. }
  cbn [stored_blocks map concat length]. now rewrite Nat.sub_0_r.
Qed.
End File.

Notation unforged := (PersistSpec.unforged H B).
Lemma unforged_skip x f : unforged x f -> unforged (skipn B x) (skipn B f).
Proof. intros U i p. rewrite !(skipn_skipn' i). apply (U (S i)). Qed.
Lemma decodes_unforged_step p g d' : p <> [] -> skipn B ((p ++ H p) ++ g) = g -> firstn B ((p ++ H p) ++ g) = p ++ H p ->
  (forall x, unforged x g -> exists d1 d2 e, decodes x d1 e /\ d' = d1 ++ d2 /\ (d2 = [] -> e = true -> x = g)) ->
  forall x, unforged x ((p ++ H p) ++ g) -> exists d1 d2 e, decodes x d1 e /\ p ++ d' = d1 ++ d2 /\ (d2 = [] -> e = true -> x = (p ++ H p) ++ g).
Proof.
  intros Np Sg Fg IH x U. destruct (decodes_total H h B HL HB (length x) x) as (d1 & e & D); [lia|].
  inversion D as [E1|f q d2 e2 Nx Eq D2|f Nx Nb]; subst.
  - exists [], (p ++ d'), true. split; [constructor|]. split; auto. destruct p; [congruence|discriminate].
  - pose proof (U 0 q) as U0. cbn [Nat.mul skipn] in U0. destruct (U0 Eq) as [k Ek]. rewrite Fg in Ek.
    destruct (Nat.lt_ge_cases k (length (p ++ H p))) as [Lk|Lk].
    + rewrite app_length, HL in Lk. assert (Lb : length p + h <= B) by (apply (f_equal (@length Z)) in Fg; rewrite firstn_length, !app_length, HL in Fg; lia).
      assert (Lx : length (firstn B x) = k) by (rewrite Ek, firstn_length, app_length, HL; lia).
      assert (SB : skipn B x = []) by (rewrite firstn_length in Lx; apply skipn_all2; lia). rewrite SB in D2. assert (d2 = [] /\ e = true) as [-> ->] by (inversion D2; subst; auto; congruence).
      exists (q ++ []), (skipn (length q) p ++ d'), true. split; [exact D|]. rewrite app_nil_r.
      pose proof (f_equal (@length Z) Eq) as Lq. rewrite Lx, app_length, HL in Lq.
      assert (Q : q = firstn (length q) p).
      { rewrite Ek in Eq. assert (X : firstn (length q) (firstn k (p ++ H p)) = firstn (length q) (q ++ H q)) by now rewrite Eq. rewrite firstn_firstn in X. replace (Nat.min (length q) k) with (length q) in X by lia.
        rewrite !firstn_app in X. replace (length q - length p) with 0 in X by lia. rewrite Nat.sub_diag, firstn_all in X. cbn [firstn] in X. rewrite !app_nil_r in X. now symmetry. }
      split; [rewrite Q at 1; rewrite app_assoc, firstn_skipn; reflexivity|]. intros X. apply app_eq_nil in X as [X _]. apply (f_equal (@length Z)) in X. rewrite skipn_length in X. cbn in X. lia.
    + rewrite (firstn_all2 (p ++ H p)) in Ek by lia. assert (q = p) as -> by (apply (split_unique H h B HL HB); congruence).
      apply unforged_skip in U. rewrite Sg in U. destruct (IH _ U) as (a & b & e1 & D1 & -> & X). exists (p ++ a), b, e1. split; [econstructor; eauto|]. split; [apply app_assoc|].
      intros Hb He. rewrite <- (firstn_skipn B x), Ek, (X Hb He). reflexivity.
  - exists [], (p ++ d'), false. split; [exact D|]. split; auto. discriminate.
Qed.
Lemma decodes_unforged d bs : blocks_of (B - h) d bs -> forall x, unforged x (stored_blocks H bs) ->
  exists d1 d2 e, decodes x d1 e /\ d = d1 ++ d2 /\ (d2 = [] -> e = true -> x = stored_blocks H bs).
Proof.
  assert (Nil : forall x, unforged x [] -> exists d1 d2 e, decodes x d1 e /\ [] = d1 ++ d2 /\ (d2 = [] -> e = true -> x = [])).
  { intros x U. destruct x as [|a x]; [exists [], [], true; repeat split; auto; constructor|].
    exists [], [], false. split; [|split; auto; discriminate]. constructor; [discriminate|]. intros p Ep. destruct (U 0 p Ep) as [k Ek]. cbn [Nat.mul skipn] in Ek. rewrite firstn_nil, firstn_nil in Ek.
    destruct B; [lia|discriminate]. }
  induction 1 as [|d Nd Ld|p d bs Lp Nd Bo IH]; intros x U.
  - now apply Nil.
  - rewrite stored_one in *. rewrite <- (app_nil_r (d ++ H d)) in U |- *.
    assert (L : length ((d ++ H d) ++ []) <= B) by (rewrite !app_length, HL; cbn; lia).
    destruct (decodes_unforged_step d [] [] Nd) with (x := x) as (d1 & d2 & e & D & Ed & X); auto.
    + now apply skipn_all2.
    + rewrite firstn_all2 by auto. apply app_nil_r.
    + rewrite app_nil_r in Ed. eauto 8.
  - change (p :: bs) with ([p] ++ bs) in *. rewrite stored_app, stored_one in *. assert (L : length (p ++ H p) = B) by (rewrite app_length, HL; lia).
    apply decodes_unforged_step; auto.
    + intros ->. cbn in Lp. lia.
    + rewrite skipn_app, skipn_all2 by lia. rewrite L, Nat.sub_diag. reflexivity.
    + rewrite firstn_app, firstn_all2 by lia. rewrite L, Nat.sub_diag. cbn. apply app_nil_r.
Qed.
Lemma unforged_firstn x f k : unforged x (firstn k f) -> unforged x f.
Proof.
  intros U i p Ep. destruct (U i p Ep) as [j Ej]. rewrite skipn_firstn_comm, !firstn_firstn in Ej. exists (Nat.min j (Nat.min B (k - i * B))). rewrite Ej, firstn_firstn. f_equal. lia.
Qed.
Lemma unforged_refl f : unforged f f.
Proof. intros i p _. exists B. now rewrite firstn_firstn, Nat.min_id. Qed.
Lemma unforged_prefix f k : unforged (firstn k f) f.
Proof. apply (unforged_firstn _ _ k), unforged_refl. Qed.
(** A proper prefix of a file decodes to a proper prefix of its data. *)
Lemma decodes_cut d bs : blocks_of (B - h) d bs -> forall k, k < length (stored_blocks H bs) -> exists d1 d2 e, decodes (firstn k (stored_blocks H bs)) d1 e /\ d = d1 ++ d2 /\ d2 <> [].
Proof.
  assert (Cut : forall p d', p <> [] -> length p <= B - h -> forall k, k < length (p ++ H p) -> exists d1 d2 e, decodes (firstn k (p ++ H p)) d1 e /\ p ++ d' = d1 ++ d2 /\ d2 <> []).
  { intros p d' Np Lp k Lk. assert (F : firstn B ((p ++ H p) ++ []) = p ++ H p) by (rewrite app_nil_r; apply firstn_all2; rewrite app_length, HL; lia).
    destruct (decodes_unforged p [p]) with (x := firstn k (p ++ H p)) as (d1 & d2 & e & D & Ed & X); [now constructor|rewrite stored_one; apply unforged_prefix|]. rewrite stored_one in X.
    exists d1, (d2 ++ d'), e. split; auto. split; [rewrite app_assoc, <- Ed; reflexivity|]. intros K. apply app_eq_nil in K as [-> ->]. rewrite app_nil_r in Ed. subst d1. destruct e.
    - specialize (X eq_refl eq_refl). apply (f_equal (@length Z)) in X. rewrite firstn_length in X. lia.
    - rewrite app_length, HL in Lk. assert (Lx : length (firstn k (p ++ H p)) = k) by (rewrite firstn_length, app_length, HL; lia).
      assert (SB : skipn B (firstn k (p ++ H p)) = []) by (apply skipn_all2; lia).
      remember (firstn k (p ++ H p)) as x eqn:Ex. clear Ex. remember false as e0 eqn:Ee in D. destruct D as [|f q d2 e2 Nx Eq D2|f Nx Nb]; [congruence| |congruence]. rewrite SB, Ee in D2. inversion D2; congruence. }
  induction 1 as [|d Nd Ld|p d bs Lp Nd Bo IH]; intros k Lk.
  - cbn in Lk. lia.
  - rewrite stored_one in *. destruct (Cut d [] Nd Ld k Lk) as (d1 & d2 & e & X & Y & Z0). rewrite app_nil_r in Y. eauto 8.
  - change (p :: bs) with ([p] ++ bs) in *. rewrite stored_app, stored_one in *. destruct (Nat.lt_ge_cases k (length (p ++ H p))) as [L1|L1].
    + rewrite firstn_app. replace (k - length (p ++ H p)) with 0 by lia. change (firstn 0 (stored_blocks H bs)) with (@nil Z). rewrite app_nil_r.
      apply Cut; auto; [|lia]. intros ->. cbn in Lp. lia.
    + rewrite app_length in Lk. destruct (IH (k - length (p ++ H p))) as (d1 & d2 & e & D & -> & N2); [lia|].
      rewrite firstn_app, (firstn_all2 (p ++ H p)) by lia. exists (p ++ d1), d2, e. split; [|split; [apply app_assoc|auto]].
      pose proof (decodes_prefix H h B HL HB [p] _ d1 e (Forall_cons _ Lp (Forall_nil _)) D) as X. rewrite stored_one in X. cbn [concat] in X. now rewrite app_nil_r in X.
Qed.
Lemma blocks_unique n d bs : 0 < n -> blocks_of n d bs -> forall d2 bs2, blocks_of n d2 bs2 -> d2 = d -> bs2 = bs.
Proof.
  intros Hn. induction 1 as [|d Nd Ld|p d bs Lp Nd Bo IH]; intros d2 bs2 Bo' E1; destruct Bo' as [|d' Nd' Ld'|p' d' bs2 Lp' Nd' Bo2]; subst d2 || idtac; try congruence.
  - apply app_eq_nil in E1 as [_ X]. congruence.
  - subst d. rewrite app_length in Ld. destruct d'; [congruence|]. cbn in Ld. lia.
  - symmetry in E1. apply app_eq_nil in E1 as [_ X]. congruence.
  - subst d'. rewrite app_length in Ld'. destruct d; [congruence|]. cbn in Ld'. lia.
  - assert (p' = p /\ d' = d) as [-> ->].
    { assert (L : length p' = length p) by lia. clear -E1 L. revert p' E1 L. induction p as [|x p IH]; intros [|y p'] E1 L; cbn in *; try lia; auto. injection E1 as -> E1. destruct (IH p' E1) as [-> ->]; auto. }
    f_equal. eapply IH; eauto.
Qed.
End Hash.
