(** Streams of bytes (C64). *)
From Coq Require Import ZifyBool ZifyNat.
From Verif Require Import Common RawStreamModel RawStreamSpec.
Local Open Scope Z_scope.

(** ** Lists *)
Lemma len_app {A} (a b : list A) : len (a ++ b) = len a + len b.
Proof. unfold len. rewrite app_length. lia. Qed.
Lemma len_nonneg {A} (a : list A) : 0 <= len a.
Proof. unfold len. lia. Qed.
Lemma len_take {A} n (l : list A) : len (take n l) = Z.max 0 (Z.min n (len l)).
Proof. unfold len, take. rewrite firstn_length. lia. Qed.
Lemma len_drop {A} n (l : list A) : len (drop n l) = Z.max 0 (len l - Z.max 0 n).
Proof. unfold len, drop. rewrite skipn_length. lia. Qed.
Lemma drop_drop {A} a b (l : list A) : 0 <= a -> 0 <= b -> drop a (drop b l) = drop (b + a) l.
Proof.
  intros Ha Hb. unfold drop. replace (Z.to_nat (b + a)) with (Z.to_nat b + Z.to_nat a)%nat by lia. generalize (Z.to_nat a) (Z.to_nat b). clear. intros a b. revert l. induction b as [|b IH]; intros l; cbn; auto.
  destruct l; cbn; auto. now rewrite skipn_nil.
Qed.
Lemma take_all {A} n (l : list A) : len l <= n -> take n l = l.
Proof. unfold len, take. intros. apply firstn_all2. lia. Qed.
Lemma take_short {A} n (l : list A) : take (Z.min (len l) n) l = take n l.
Proof. destruct (Z.le_gt_cases (len l) n); [|f_equal; lia]. rewrite !take_all; auto; lia. Qed.
Lemma drop_all {A} n (l : list A) : len l <= n -> drop n l = [].
Proof. unfold len, drop. intros. apply skipn_all2. lia. Qed.
Lemma drop_len {A} n (l : list A) : drop (len (take n l)) l = drop n l.
Proof.
  rewrite len_take. destruct (Z.le_gt_cases (len l) n); [rewrite !drop_all; auto; pose proof (len_nonneg l); lia|]. destruct (Z.le_gt_cases n 0); [|f_equal; lia].
  unfold drop. f_equal. pose proof (len_nonneg l). lia.
Qed.
Lemma len_nil {A} (l : list A) : len l = 0 -> l = [].
Proof. destruct l; auto. unfold len. cbn. lia. Qed.

(** ** Reading in sequence *)
Fixpoint vec_run (s : vec_in) (rs : list request) : list reply :=
  match rs with
  | [] => []
  | RRead n :: r => let (s', b) := vec_read s n in PBytes b :: vec_run s' r
  | REnd :: r => PBool (vec_end s) :: vec_run s r
  end.
Fixpoint std_run (s : std_in) (rs : list request) : list reply :=
  match rs with
  | [] => []
  | RRead n :: r => let (s', b) := std_read s n in PBytes b :: std_run s' r
  | REnd :: r => let (s', b) := std_end s in PBool b :: std_run s' r
  end.
Definition op_of (r : request) : op := match r with RRead n => Read n | REnd => End end.
Definition answer_of (p : reply) : res answer := match p with PBytes b => Ok (ABytes b) | PBool b => Ok (ABool b) end.

Lemma vec_read_ok s n : 0 <= off s <= len (vec s) -> 0 <= n ->
  vec_read s n = ({| vec := vec s; off := off s + len (take n (drop (off s) (vec s))) |}, take n (drop (off s) (vec s))).
Proof.
  intros Ho Hn. unfold vec_read. assert (L : len (drop (off s) (vec s)) = len (vec s) - off s) by (rewrite len_drop; lia). rewrite <- L, take_short, len_take. pose proof (len_nonneg (drop (off s) (vec s))).
  f_equal; [f_equal; lia|]. destruct (Z.eqb_spec (Z.min (len (drop (off s) (vec s))) n) 0) as [E|E]; auto.
  symmetry. apply len_nil. rewrite len_take. lia.
Qed.
(** VectorInputStream gives the bytes of the vector, *)
Lemma vec_run_ok rs : forall s, 0 <= off s <= len (vec s) -> Forall valid_request rs -> vec_run s rs = replies (drop (off s) (vec s)) rs.
Proof.
  induction rs as [|r rs IH]; intros s Ho Hf; cbn [vec_run replies]; auto. inversion Hf as [|? ? H1 H2]; subst. destruct r as [n|].
  - cbn in H1. rewrite vec_read_ok by lia. f_equal. rewrite IH; cbn [off vec]; auto.
    + fold (drop n (drop (off s) (vec s))). f_equal. rewrite <- (drop_len n), drop_drop; auto; try lia. apply len_nonneg.
    + rewrite len_take, len_drop. lia.
  - f_equal; [|now apply IH]. f_equal. unfold vec_end. destruct (drop (off s) (vec s)) eqn:E.
    + apply (f_equal len) in E. rewrite len_drop in E. change (len []) with 0 in E. lia.
    + apply (f_equal len) in E. rewrite len_drop in E. unfold len in E at 2. cbn [length] in E. lia.
Qed.
Theorem vector_stream v rs : Forall valid_request rs -> vec_run {| vec := v; off := 0 |} rs = replies v rs.
Proof. intros H. rewrite vec_run_ok; auto. cbn [off vec]. pose proof (len_nonneg v). lia. Qed.
(** StdInputStream those of the std::istream if it is good, *)
Theorem std_stream l rs : Forall valid_request rs -> std_run {| left := l; eofbit := false; failbit := false |} rs = replies l rs.
Proof.
  enough (G : forall rs s, Forall valid_request rs -> (good s = true \/ (left s = [] /\ eofbit s = true)) -> std_run s rs = replies (left s) rs) by (intros H; apply (G rs); auto).
  clear. induction rs as [|r rs IH]; intros s Hf Hs; cbn [std_run replies]; auto. inversion Hf as [|? ? H1 H2]; subst. destruct r as [n|].
  - cbn in H1. unfold std_read. fold (take n (left s)). fold (drop n (left s)). destruct Hs as [Hg|[Hl He]].
    + rewrite Hg. f_equal. rewrite IH; auto. cbn [left eofbit failbit good]. unfold good. cbn [eofbit failbit]. rewrite len_take. destruct (Z.max 0 (Z.min n (len (left s))) <? n) eqn:E; [right|left; auto].
      split; auto. apply drop_all. lia.
    + replace (good s) with false by (unfold good; now rewrite He). rewrite Hl. f_equal; [unfold take; now rewrite firstn_nil|]. rewrite IH; auto. cbn [left]. unfold drop. now rewrite skipn_nil.
  - unfold std_end. destruct Hs as [Hg|[Hl He]].
    + rewrite Hg. cbn [eofbit]. destruct (left s) eqn:E; f_equal; rewrite IH; auto.
    + replace (good s) with false by (unfold good; now rewrite He). cbn [eofbit]. rewrite He, Hl. f_equal. rewrite IH; auto.
Qed.
(** and a PosixStream those of the file from its position on, if the system reads whole blocks. *)
Theorem posix_stream_partial max f rs : 0 <= fpos f <= len (content f) -> Forall valid_request rs -> Forall (fun r => match r with RRead n => n <= max | REnd => True end) rs ->
  snd (run (posix_step max) (map op_of rs) f) = map answer_of (replies (drop (fpos f) (content f)) rs).
Proof.
  revert f. induction rs as [|r rs IH]; intros f Hp Hf Hm; cbn [run map replies]; auto. inversion Hf as [|? ? H1 H2]; subst. inversion Hm as [|? ? H3 H4]; subst. destruct r as [n|]; cbn [op_of posix_step].
  - cbn in H1, H3. unfold sys_read. rewrite Z.min_l by lia. set (b := take n (drop (fpos f) (content f))).
    specialize (IH (at_pos f (fpos f + len b))). destruct (run _ _ _) as [f2 l]. cbn [snd] in IH |- *. cbn [map answer_of]. f_equal. rewrite IH; auto; cbn [at_pos fpos content].
    + f_equal. f_equal. fold (drop n (drop (fpos f) (content f))). rewrite <- (drop_len n), drop_drop; auto; try lia. apply len_nonneg.
    + unfold b. rewrite len_take, len_drop. lia.
  - specialize (IH f Hp H2 H4). destruct (run _ _ _) as [f2 l]. cbn [snd] in *. cbn [map answer_of]. f_equal; auto. f_equal. f_equal. destruct (drop (fpos f) (content f)) eqn:E.
    + apply (f_equal len) in E. rewrite len_drop in E. change (len []) with 0 in E. lia.
    + apply (f_equal len) in E. rewrite len_drop in E. unfold len in E at 2. cbn [length] in E. lia.
Qed.
(** So what is received does not depend on the sizes of the pieces. *)
Lemma requested_nonneg rs : Forall valid_request rs -> 0 <= requested rs.
Proof. induction rs as [|[k|] rs IH]; intros H; [cbn; lia| |]; inversion H as [|? ? V H2]; subst; specialize (IH H2); unfold requested in *; cbn [fold_right valid_request] in *; lia. Qed.
Lemma received_ok rs : forall l, Forall valid_request rs -> received (replies l rs) = take (requested rs) l.
Proof.
  induction rs as [|r rs IH]; intros l Hf; [reflexivity|]. inversion Hf as [|? ? H1 H2]; subst. destruct r as [n|]; [|exact (IH l H2)].
  change (received (replies l (RRead n :: rs))) with (take n l ++ received (replies (drop n l) rs)). rewrite IH by auto. change (requested (RRead n :: rs)) with (n + requested rs). cbn in H1. pose proof (requested_nonneg rs H2).
  unfold take, drop. replace (Z.to_nat (n + requested rs)) with (Z.to_nat n + Z.to_nat (requested rs))%nat by lia. generalize (Z.to_nat n) (Z.to_nat (requested rs)). clear. intros a b. revert l. induction a as [|a IH]; intros [|x l]; cbn; auto; [now rewrite firstn_nil|]. f_equal. apply IH.
Qed.
Theorem streams_pieces v rs1 rs2 : Forall valid_request rs1 -> Forall valid_request rs2 -> requested rs1 = requested rs2 ->
  received (vec_run {| vec := v; off := 0 |} rs1) = received (std_run {| left := v; eofbit := false; failbit := false |} rs2) /\
  received (vec_run {| vec := v; off := 0 |} rs1) = take (requested rs1) v.
Proof. intros H1 H2 E. rewrite vector_stream, std_stream, !received_ok, E; auto. Qed.
(** ReadRaw gives all that was asked for, or throws at the end. *)
Definition raw_result (rest : list Z) (n : Z) : res (list Z) := if n <=? len rest then Ok (take n rest) else Throw EndOfFile.
Theorem read_raw_vector v k n : 0 <= k <= len v -> 0 <= n < 2 ^ 64 ->
  snd (read_raw vec_read {| vec := v; off := k |} n) = raw_result (drop k v) n.
Proof. intros Hk Hn. unfold read_raw. rewrite vec_read_ok by (cbn; lia). cbn [vec off snd]. unfold raw_result. rewrite len_take. pose proof (len_nonneg (drop k v)). destruct (_ <? n) eqn:E, (n <=? _) eqn:E2; auto; lia. Qed.
Theorem read_raw_std l n : 0 <= n < 2 ^ 64 -> snd (read_raw std_read {| left := l; eofbit := false; failbit := false |} n) = raw_result l n.
Proof. intros Hn. unfold read_raw, std_read. change (good _) with true. cbv iota. cbn [left snd]. unfold raw_result. rewrite len_take. destruct (_ <? n) eqn:E, (n <=? _) eqn:E2; auto; pose proof (len_nonneg l); lia. Qed.
Theorem read_raw_posix_partial max f n : 0 <= fpos f -> 0 <= n <= max -> snd (read_raw (sys_read max) f n) = raw_result (drop (fpos f) (content f)) n.
Proof. intros Hp Hn. unfold read_raw, sys_read. rewrite Z.min_l by lia. cbn [snd]. unfold raw_result. rewrite len_take. pose proof (len_nonneg (drop (fpos f) (content f))). destruct (_ <? n) eqn:E, (n <=? _) eqn:E2; auto; lia. Qed.
(** Violated: read(2) returns at most 0x7ffff000 bytes, and this is taken for the end of the
    file, although there is more. *)
Theorem read_raw_posix_refuted : exists f n, 0 <= n < 2 ^ 64 /\ n <= len (drop (fpos f) (content f)) /\ snd (read_raw (sys_read 2147479552) f n) = Throw EndOfFile.
Proof.
  exists {| content := repeat 0 (Z.to_nat (2 ^ 31)); fpos := 0 |}, (2 ^ 31). assert (L : len (repeat 0 (Z.to_nat (2 ^ 31))) = 2 ^ 31) by (unfold len; rewrite repeat_length; lia).
  split; [lia|]. cbn [content fpos]. assert (L2 : len (drop 0 (repeat 0 (Z.to_nat (2 ^ 31)))) = 2 ^ 31) by (rewrite len_drop, L; lia). split; [lia|]. unfold read_raw, sys_read. cbn [content fpos snd]. rewrite len_take, L2. replace (_ <? 2 ^ 31) with true by lia. reflexivity.
Qed.
(** Violated: a std::ifstream whose file could not be opened never ends and never gives a byte. *)
Theorem std_not_open_refuted : exists s, good s = false /\ forall n, std_end s = (s, false) /\ std_read s n = (s, []).
Proof. exists {| left := []; eofbit := false; failbit := true |}. auto. Qed.

(** ** Writing *)
Theorem measure_length ws : fold_left measure_write ws 0 = len (fold_left vec_write ws []) mod 2 ^ 64 /\ fold_left vec_write ws [] = concat ws.
Proof.
  assert (G : forall ws (v : list Z), fold_left vec_write ws v = v ++ concat ws).
  { clear. induction ws as [|w ws IH]; intros v; cbn; [now rewrite app_nil_r|]. rewrite IH. unfold vec_write. now rewrite app_assoc. }
  split; [|now rewrite G]. rewrite G. cbn [app]. enough (K : forall ws p, fold_left measure_write ws (p mod 2 ^ 64) = (p + len (concat ws)) mod 2 ^ 64) by (apply (K ws 0)).
  clear. induction ws as [|w ws IH]; intros p; cbn [fold_left concat].
  - f_equal. change (len []) with 0. lia.
  - unfold measure_write at 2. rewrite Z.add_mod_idemp_l by lia. rewrite IH. f_equal. rewrite len_app. lia.
Qed.

(** ** A file *)
Definition repr (f : file) (s : sfile) : Prop := slen s = len (content f) /\ spos s = fpos f /\ forall i, 0 <= i < slen s -> sat s i = nth (Z.to_nat i) (content f) 0.
Definition spec_step (o : op) (s : sfile) : sfile * res answer :=
  match o with
  | Read n => (sseek s (spos s + len (sread s n)), Ok (ABytes (sread s n)))
  | Write b => (match b with [] => s | _ => swrite s b end, Ok ADone)
  | End => (s, Ok (ABool (slen s <=? spos s)))
  | Seek p b => let q := if b then p else slen s + p in if q <? 2 ^ 63 then (sseek s q, Ok ADone) else (s, Throw IoError)
  | Move d => let q := spos s + d in if (0 <=? q) && (q <? 2 ^ 63) then (sseek s q, Ok ADone) else (s, Throw IoError)
  | Truncate => (struncate s, Ok ADone)
  | Flush => (s, Ok ADone)
  | GetPosition => (s, Ok (ANum (spos s)))
  | GetLength => (s, Ok (ANum (slen s)))
  end.
(** The operations within the limits of the system; End is not asked beyond the end. *)
Definition within_limits (max : Z) (o : op) (s : sfile) : Prop :=
  match o with
  | Read n => 0 <= n <= max
  | Write b => len b <= max
  | End => spos s <= slen s
  | Seek p b => 0 <= p < 2 ^ 63
  | Move d => - 2 ^ 63 <= d < 2 ^ 63
  | _ => True
  end.
Lemma nth_take n l i : 0 <= i < n -> nth (Z.to_nat i) (take n l) 0 = nth (Z.to_nat i) l 0.
Proof. intros H. unfold take. assert (L : (Z.to_nat i < Z.to_nat n)%nat) by lia. revert L. generalize (Z.to_nat i) (Z.to_nat n). clear. intros i n. revert i l. induction n as [|n IH]; intros [|i] [|x l] L; cbn; auto; try lia. apply IH. lia. Qed.
Lemma nth_drop n l i : 0 <= n -> 0 <= i -> nth (Z.to_nat i) (drop n l) 0 = nth (Z.to_nat (n + i)) l 0.
Proof. intros Hn Hi. unfold drop. replace (Z.to_nat (n + i)) with (Z.to_nat n + Z.to_nat i)%nat by lia. generalize (Z.to_nat n) (Z.to_nat i). clear. intros n. revert l. induction n as [|n IH]; intros [|x l] i; cbn; auto. destruct i; auto. Qed.
Lemma nth_app_l a b i : 0 <= i < len a -> nth (Z.to_nat i) (a ++ b) 0 = nth (Z.to_nat i) a 0.
Proof. intros H. apply app_nth1. unfold len in H. lia. Qed.
Lemma nth_app_r a b i : len a <= i -> nth (Z.to_nat i) (a ++ b) 0 = nth (Z.to_nat (i - len a)) b 0.
Proof. intros H. rewrite app_nth2 by (unfold len in H; lia). f_equal. unfold len in *. lia. Qed.
Lemma nth_zeros n i : nth i (repeat 0 n) 0 = 0.
Proof. revert i. induction n as [|n IH]; intros [|i]; cbn; auto. Qed.
Lemma len_resize l n : 0 <= n -> len (resize l n) = n.
Proof. intros H. unfold resize. rewrite len_app, len_take. unfold len at 2. rewrite repeat_length. pose proof (len_nonneg l). lia. Qed.
Lemma nth_resize l n i : 0 <= i < n -> nth (Z.to_nat i) (resize l n) 0 = if i <? len l then nth (Z.to_nat i) l 0 else 0.
Proof.
  intros H. unfold resize. destruct (Z.ltb_spec i (len l)).
  - rewrite nth_app_l by (rewrite len_take; lia). apply nth_take. lia.
  - rewrite nth_app_r by (rewrite len_take; lia). apply nth_zeros.
Qed.
Lemma repr_read f s n : repr f s -> 0 <= fpos f -> 0 <= n -> sread s n = take n (drop (fpos f) (content f)).
Proof.
  intros (E1 & E2 & E3) Hp Hn. apply nth_ext with (d := 0) (d' := 0).
  - unfold sread. rewrite map_length, seq_length. apply Nat2Z.inj. fold (len (take n (drop (fpos f) (content f)))). rewrite len_take, len_drop. rewrite E1, E2. lia.
  - intros i Hi. unfold sread in Hi |- *. rewrite map_length, seq_length in Hi. rewrite (nth_indep _ 0 ((fun k => sat s (spos s + Z.of_nat k)) 0%nat)) by (rewrite map_length, seq_length; lia).
    rewrite (map_nth (fun k => sat s (spos s + Z.of_nat k))). rewrite seq_nth by lia. cbn [Nat.add]. rewrite E3 by lia.
    replace i with (Z.to_nat (Z.of_nat i)) at 2 by lia. rewrite nth_take by lia. rewrite nth_drop by lia. f_equal. lia.
Qed.
Lemma seek_ok f s p : repr f s -> 0 <= p -> (if p <? 2 ^ 63 then exists f', sys_seek f p = Some f' /\ repr f' (sseek s p) else sys_seek f p = None).
Proof.
  intros (E1 & E2 & E3) Hp. unfold sys_seek. replace (0 <=? p) with true by lia. cbn [andb]. destruct (p <? 2 ^ 63); auto. exists (at_pos f p). split; auto. repeat split; auto.
Qed.
(** PosixStream is such a file, within the limits of the system. *)
Lemma posix_step_ok max o f s : repr f s -> 0 <= fpos f -> within_limits max o s ->
  let (f', a) := posix_step max o f in let (s', a') := spec_step o s in a = a' /\ repr f' s' /\ 0 <= fpos f'.
Proof.
  intros R Hp Hw. pose proof R as (E1 & E2 & E3). destruct o; cbn [posix_step spec_step within_limits] in *.
  - unfold sys_read. rewrite Z.min_l by lia. rewrite <- (repr_read f s n R) by lia. split; [reflexivity|]. cbn [fpos at_pos]. split; [|pose proof (len_nonneg (sread s n)); lia]. repeat split; cbn; auto; lia.
  - unfold sys_write. rewrite take_all by lia. destruct b as [|x b]; [change (len []) with 0; cbn; auto|]. set (d := x :: b) in *. rewrite Z.eqb_refl. split; [reflexivity|]. cbn [fpos].
    assert (Hd : 0 < len d) by (unfold len, d; cbn; lia). split; [|lia]. split; [|split].
    + cbn [swrite slen content]. rewrite !len_app, len_resize, len_drop by lia. fold (len d). rewrite E1, E2. lia.
    + cbn [swrite spos fpos]. fold (len d). lia.
    + intros i Hi. cbn [swrite slen sat content] in *. fold (len d) in *. rewrite E2 in *. destruct (Z.ltb_spec i (fpos f)).
      * replace (fpos f <=? i) with false by lia. cbn [andb]. rewrite nth_app_l by (rewrite len_resize; lia). rewrite nth_resize by lia. rewrite <- E1. destruct (Z.ltb_spec i (slen s)); auto. apply E3. lia.
      * replace (fpos f <=? i) with true by lia. cbn [andb]. rewrite nth_app_r by (rewrite len_resize; lia). rewrite len_resize by lia. destruct (Z.ltb_spec i (fpos f + len d)).
        -- now rewrite nth_app_l by lia.
        -- rewrite nth_app_r by lia. rewrite nth_drop by lia. replace (i <? slen s) with true by lia. rewrite E3 by lia. f_equal. lia.
  - split; [|split; auto]. do 2 f_equal. rewrite <- E1, <- E2. lia.
  - unfold to_off. replace (p <? 2 ^ 63) with true by lia. rewrite <- E1. set (q := if from_begin then p else slen s + p). assert (Hq : 0 <= q) by (unfold q; pose proof (len_nonneg (content f)); destruct from_begin; lia).
    replace ((if from_begin then 0 else slen s) + p) with q by (unfold q; destruct from_begin; lia). pose proof (seek_ok f s q R Hq) as K. unfold posix_seek. destruct (q <? 2 ^ 63); [destruct K as (f' & -> & K)|rewrite K; auto]. split; auto. split; auto. destruct K as (_ & K & _). cbn in K. lia.
  - rewrite E2. unfold posix_seek. destruct (Z.leb_spec 0 (fpos f + d)); cbn [andb].
    + pose proof (seek_ok f s (fpos f + d) R ltac:(lia)) as K. destruct (fpos f + d <? 2 ^ 63); [destruct K as (f' & -> & K)|rewrite K; auto]. split; auto. split; auto. destruct K as (_ & K & _). cbn in K. lia.
    + unfold sys_seek. replace (0 <=? fpos f + d) with false by lia. cbn [andb]. auto.
  - split; [reflexivity|]. split; [|exact Hp]. split; [|split]; cbn [struncate sys_truncate slen spos sat content fpos]; auto; [rewrite len_resize; lia|].
    intros i Hi. rewrite E2 in Hi. rewrite nth_resize by lia. rewrite <- E1. destruct (Z.ltb_spec i (slen s)); auto. apply E3. lia.
  - auto.
  - rewrite E2. auto.
  - rewrite E1. auto.
Qed.
Fixpoint spec_run (os : list op) (s : sfile) : sfile * list (res answer) :=
  match os with [] => (s, []) | o :: r => let (s1, a) := spec_step o s in let (s2, l) := spec_run r s1 in (s2, a :: l) end.
Fixpoint all_within (max : Z) (os : list op) (s : sfile) : Prop :=
  match os with [] => True | o :: r => within_limits max o s /\ all_within max r (fst (spec_step o s)) end.
Theorem posix_file_partial max os f s : repr f s -> 0 <= fpos f -> all_within max os s ->
  let (f', l) := run (posix_step max) os f in let (s', l') := spec_run os s in l = l' /\ repr f' s' /\ 0 <= fpos f'.
Proof.
  revert f s. induction os as [|o os IH]; intros f s R Hp Hw; cbn [run spec_run]; auto. destruct Hw as [Hw1 Hw2]. pose proof (posix_step_ok max o f s R Hp Hw1) as K.
  destruct (posix_step max o f) as [f1 a]. destruct (spec_step o s) as [s1 a']. cbn [fst] in Hw2. destruct K as (-> & R1 & Hp1). specialize (IH f1 s1 R1 Hp1 Hw2). destruct (run _ os f1) as [f2 l]. destruct (spec_run os s1) as [s2 l']. destruct IH as (-> & R2 & Hp2). auto.
Qed.
Lemma read_back l p d r : 0 <= p -> take (len d) (drop p (resize l p ++ d ++ r)) = d.
Proof.
  intros Hp. assert (L : Z.to_nat p = length (resize l p)) by (pose proof (len_resize l p Hp) as L; unfold len in L; lia). unfold drop. rewrite L, skipn_app, skipn_all, Nat.sub_diag. cbn [skipn app]. unfold take, len. rewrite Nat2Z.id, firstn_app, Nat.sub_diag, firstn_all. cbn [firstn]. apply app_nil_r.
Qed.
(** What is written can be read again at its place. *)
Theorem posix_round_trip_partial max f p b : 0 <= fpos f -> 0 <= p -> p + len b < 2 ^ 63 -> len b <= max ->
  snd (run (posix_step max) [Seek p true; Write b; Move (- len b); Read (len b)] f) = [Ok ADone; Ok ADone; Ok ADone; Ok (ABytes b)].
Proof.
  intros Hf Hp Hb Hm. pose proof (len_nonneg b) as Lb. cbn [run].
  assert (E1 : posix_step max (Seek p true) f = (at_pos f p, Ok ADone)).
  { cbn [posix_step]. unfold to_off, posix_seek, sys_seek. replace (p <? 2 ^ 63) with true by lia. cbn [Z.add]. replace (0 <=? p) with true by lia. replace (p <? 2 ^ 63) with true by lia. reflexivity. }
  assert (E2 : exists g, posix_step max (Write b) (at_pos f p) = (g, Ok ADone) /\ fpos g = p + len b /\ take (len b) (drop p (content g)) = b).
  { cbn [posix_step]. unfold sys_write. rewrite take_all by lia. destruct b as [|x b].
    - exists (at_pos f p). split; [reflexivity|]. split; [cbn; lia|reflexivity].
    - rewrite Z.eqb_refl. eexists. split; [reflexivity|]. split; [reflexivity|]. cbn [content at_pos fpos]. now apply read_back. }
  destruct E2 as (g & E2 & E3 & E4). assert (E5 : posix_step max (Move (- len b)) g = (at_pos g p, Ok ADone)).
  { cbn [posix_step]. unfold posix_seek, sys_seek. rewrite E3. replace (p + len b + - len b) with p by lia. replace (0 <=? p) with true by lia. replace (p <? 2 ^ 63) with true by lia. reflexivity. }
  rewrite E1, E2, E5. cbn [posix_step]. unfold sys_read. cbn [content fpos at_pos snd]. rewrite Z.min_l, E4 by lia. reflexivity.
Qed.
(** Violated: beyond the end of the file End() is false, and there is nothing to read. *)
Theorem posix_end_refuted : exists os, forall k max n, 0 <= max -> 0 <= n ->
  let f := fst (run (posix_step max) os {| content := []; fpos := 0 |}) in
  snd (run (posix_step max) (concat (repeat [End; Read n] k)) f) = concat (repeat [Ok (ABool false); Ok (ABytes [])] k).
Proof.
  exists [Seek 1 true]. intros k max n Hm Hn. cbv zeta. change (fst (run (posix_step max) [Seek 1 true] {| content := []; fpos := 0 |})) with {| content := @nil Z; fpos := 1 |}.
  assert (E : forall o, o = End \/ o = Read n -> posix_step max o {| content := @nil Z; fpos := 1 |} = ({| content := []; fpos := 1 |}, match o with End => Ok (ABool false) | _ => Ok (ABytes []) end)).
  { intros o [-> | ->]; [reflexivity|]. cbn [posix_step]. unfold sys_read, drop, take. cbn [content fpos]. rewrite skipn_nil, firstn_nil. reflexivity. }
  induction k as [|k IH]; [reflexivity|]. cbn [repeat concat app run]. rewrite !E by auto. destruct (run (posix_step max) (concat (repeat [End; Read n] k)) {| content := []; fpos := 1 |}) as [f l]. cbn [snd] in *. now rewrite IH.
Qed.

(** ** Windows *)
Theorem win_file_partial o f s : repr f s -> 0 <= fpos f -> within_limits (2 ^ 32 - 1) o s -> (forall q, snd (spec_step o s) = Throw q -> False) ->
  let (f', a) := win_step o f in let (s', a') := spec_step o s in a = a' /\ repr f' s' /\ 0 <= fpos f'.
Proof.
  intros R Hp Hw Hn. assert (K : win_step o f = posix_step (2 ^ 32) o f).
  { pose proof R as (E1 & E2 & E3). destruct o; cbn [win_step posix_step within_limits spec_step] in *; auto.
    - unfold to_dword. now rewrite Z.mod_small by lia.
    - unfold to_dword. rewrite Z.mod_small by (pose proof (len_nonneg b); lia). now rewrite (take_all (len b)) by lia.
    - unfold to_off. replace (p <? 2 ^ 63) with true by lia. rewrite <- E1. unfold win_seek, posix_seek, sys_seek. destruct (_ && _) eqn:E; auto. destruct ((if from_begin then p else slen s + p) <? 2 ^ 63) eqn:E4; [|exfalso; eapply Hn; reflexivity]. pose proof (len_nonneg (content f)). destruct from_begin; lia.
    - rewrite E2 in *. unfold win_seek, posix_seek, sys_seek. destruct (_ && _) eqn:E; auto. exfalso. eapply Hn. reflexivity. }
  rewrite K. apply posix_step_ok; auto. destruct o; cbn in *; auto; lia.
Qed.
(** Violated: moving before the begin of the file is reported as done, and nothing has moved; *)
Theorem win_seek_refuted : exists f d, 0 <= fpos f /\ fpos f + d < 0 /\ win_step (Move d) f = (f, Ok ADone).
Proof. exists {| content := [1; 2; 3]; fpos := 1 |}, (-2). repeat split; cbn; lia. Qed.
(** of 2^32 + 5 bytes five are written, which is reported as done. *)
Lemma win_write_wraps b : len b = 2 ^ 32 + 5 -> win_step (Write b) {| content := []; fpos := 0 |} = ({| content := take 5 b; fpos := 5 |}, Ok ADone).
Proof.
  intros L. cbn [win_step]. unfold to_dword. rewrite L. change ((2 ^ 32 + 5) mod 2 ^ 32) with 5. unfold sys_write. assert (L2 : len (take 5 b) = 5) by (rewrite len_take; lia). rewrite (take_all (2 ^ 32)) by lia. destruct (take 5 b) as [|x r] eqn:E; [discriminate|]. rewrite L2. cbn [content fpos Z.add Z.eqb]. unfold resize, take, drop. cbn [Z.to_nat firstn repeat len length Z.of_nat Z.sub Z.opp Z.add app]. rewrite skipn_nil, app_nil_r. reflexivity.
Qed.
Theorem win_write_refuted : exists b, len b = 2 ^ 32 + 5 /\ win_step (Write b) {| content := []; fpos := 0 |} = ({| content := take 5 b; fpos := 5 |}, Ok ADone).
Proof. exists (repeat 0 (Z.to_nat (2 ^ 32 + 5))). assert (L : len (repeat 0 (Z.to_nat (2 ^ 32 + 5))) = 2 ^ 32 + 5) by (unfold len; rewrite repeat_length; lia). split; [exact L|now apply win_write_wraps]. Qed.
Example posix_demo : snd (run (posix_step 100) [Write [1; 2; 3]; Seek 5 true; Write [9]; Seek 1 true; Read 10; End; Move (-3); Truncate; GetLength; Move (-4); Seek 0 false; GetPosition] {| content := []; fpos := 0 |}) =
  [Ok ADone; Ok ADone; Ok ADone; Ok ADone; Ok (ABytes [2; 3; 0; 0; 9]); Ok (ABool true); Ok ADone; Ok ADone; Ok (ANum 3); Throw IoError; Ok ADone; Ok (ANum 3)].
Proof. reflexivity. Qed.
Example streams_demo : vec_run {| vec := [1; 2; 3; 4; 5]; off := 0 |} [RRead 2; REnd; RRead 0; RRead 7; REnd; RRead 1] = [PBytes [1; 2]; PBool false; PBytes []; PBytes [3; 4; 5]; PBool true; PBytes []] /\
  std_run {| left := [1; 2; 3; 4; 5]; eofbit := false; failbit := false |} [RRead 2; REnd; RRead 0; RRead 7; REnd; RRead 1] = [PBytes [1; 2]; PBool false; PBytes []; PBytes [3; 4; 5]; PBool true; PBytes []].
Proof. split; reflexivity. Qed.
