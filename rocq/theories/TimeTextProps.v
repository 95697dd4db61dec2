(** Points in time from dates, and durations as texts (C87). *)
From Verif Require Import Common TimeTextModel.
From Coq Require Import ZifyBool ZifyNat.
Local Open Scope Z_scope.
Ltac Zify.zify_post_hook ::= Z.to_euclidean_division_equations.

(** ** Specification: the Gregorian calendar, day after day from 1 January 1970 *)
Definition length_of_month (y m : Z) : Z :=
  if m =? 2 then (if y mod 4 =? 0 then if y mod 100 =? 0 then if y mod 400 =? 0 then 29 else 28 else 29 else 28)
  else if (m =? 4) || (m =? 6) || (m =? 9) || (m =? 11) then 30 else 31.
Definition valid (c : Z * Z * Z) : Prop :=
  let '(y, m, d) := c in 1 <= m <= 12 /\ 1 <= d <= length_of_month y m.
Definition next_day (c : Z * Z * Z) : Z * Z * Z :=
  let '(y, m, d) := c in
  if d <? length_of_month y m then (y, m, d + 1) else if m <? 12 then (y, m + 1, 1) else (y + 1, 1, 1).
(** [is_day n c]: c is the day n days after (before, if n is negative) 1 January 1970 *)
Inductive is_day : Z -> Z * Z * Z -> Prop :=
| epoch : is_day 0 (1970, 1, 1)
| forth n c : is_day n c -> is_day (n + 1) (next_day c)
| back n c : valid c -> is_day n (next_day c) -> is_day (n - 1) c.

(** ** Counting the days *)
Definition daynum (c : Z * Z * Z) : Z :=
  let '(y, m, d) := c in days_before_year y + days_before_month (leap y) (m - 1) + (d - 1) - epoch_days.
Lemma leap_spec y : leap y = (if y mod 4 =? 0 then if y mod 100 =? 0 then y mod 400 =? 0 else true else false).
Proof. unfold leap. destruct (y mod 4 =? 0), (y mod 100 =? 0), (y mod 400 =? 0); reflexivity. Qed.
Lemma month_step y m : 1 <= m < 12 -> days_before_month (leap y) m = days_before_month (leap y) (m - 1) + length_of_month y m.
Proof.
  intros H. unfold length_of_month. destruct (leap y) eqn:E; rewrite leap_spec in E.
  all: assert (C : m = 1 \/ m = 2 \/ m = 3 \/ m = 4 \/ m = 5 \/ m = 6 \/ m = 7 \/ m = 8 \/ m = 9 \/ m = 10 \/ m = 11) by lia.
  all: repeat destruct C as [->|C]; try subst m; try reflexivity.
  all: cbn - [Z.modulo]; destruct (y mod 4 =? 0); try discriminate; try reflexivity.
  all: destruct (y mod 100 =? 0); try discriminate; try reflexivity.
  all: rewrite E; reflexivity.
Qed.
Lemma year_step y : days_before_year (y + 1) = days_before_year y + (if leap y then 366 else 365).
Proof. unfold days_before_year. rewrite leap_spec. destruct (Z.eqb_spec (y mod 4) 0), (Z.eqb_spec (y mod 100) 0), (Z.eqb_spec (y mod 400) 0); lia. Qed.
Lemma length_pos y m : 28 <= length_of_month y m <= 31.
Proof.
  unfold length_of_month. destruct (m =? 2); [|destruct (_ || _); lia].
  destruct (y mod 4 =? 0); [destruct (y mod 100 =? 0); [destruct (y mod 400 =? 0)|]|]; lia.
Qed.
Lemma december y : length_of_month y 12 = 31 /\ days_before_month (leap y) 11 = (if leap y then 335 else 334).
Proof. split; [reflexivity|]. destruct (leap y); reflexivity. Qed.
Lemma january lp : days_before_month lp 0 = 0.
Proof. destruct lp; reflexivity. Qed.
Lemma next_valid c : valid c -> valid (next_day c).
Proof.
  destruct c as [[y m] d]. cbn [valid next_day]. intros [M D].
  destruct (Z.ltb_spec d (length_of_month y m)); [cbn; lia|].
  pose proof (length_pos y (m + 1)). pose proof (length_pos (y + 1) 1).
  destruct (Z.ltb_spec m 12); cbn [valid]; lia.
Qed.
Lemma next_num c : valid c -> daynum (next_day c) = daynum c + 1.
Proof.
  destruct c as [[y m] d]. cbn [valid next_day]. intros [M D].
  destruct (Z.ltb_spec d (length_of_month y m)); [cbn [daynum]; lia|].
  destruct (Z.ltb_spec m 12); cbn [daynum].
  - pose proof (month_step y m). replace (m + 1 - 1) with m by lia. lia.
  - assert (m = 12) as -> by lia. destruct (december y) as [L E]. rewrite year_step.
    change (1 - 1) with 0. change (12 - 1) with 11. rewrite january, E. destruct (leap y); lia.
Qed.
Lemma is_day_num n c : is_day n c -> valid c /\ daynum c = n.
Proof.
  induction 1 as [|n c _ [V N]|n c V _ [_ N]].
  - split; [cbn; lia|reflexivity].
  - split; [now apply next_valid|]. rewrite next_num by assumption. lia.
  - split; [exact V|]. rewrite next_num in N by assumption. lia.
Qed.

(** Every date of the calendar is reached *)
Lemma year_mono y y' : y < y' -> days_before_year (y + 1) <= days_before_year y'.
Proof. unfold days_before_year. lia. Qed.
Lemma month_mono y m m' : 1 <= m -> m < m' -> m' <= 12 -> days_before_month (leap y) (m - 1) + length_of_month y m <= days_before_month (leap y) (m' - 1).
Proof.
  intros H1 H2 H3. replace m' with (m + 1 + (m' - m - 1)) in * by lia.
  assert (K : 0 <= m' - m - 1) by lia. revert H2 H3. generalize (m' - m - 1) K. clear m' K.
  apply (natlike_ind (fun k => m < m + 1 + k -> m + 1 + k <= 12 ->
    days_before_month (leap y) (m - 1) + length_of_month y m <= days_before_month (leap y) (m + 1 + k - 1))).
  - intros _ L. replace (m + 1 + 0 - 1) with m by lia. rewrite (month_step y m) by lia. lia.
  - intros k Hk IH _ L. replace (m + 1 + Z.succ k - 1) with (m + 1 + k) by lia. rewrite (month_step y (m + 1 + k)) by lia.
    pose proof (length_pos y (m + 1 + k)). specialize (IH ltac:(lia) ltac:(lia)). lia.
Qed.
Lemma in_year y m d : valid (y, m, d) -> 0 <= days_before_month (leap y) (m - 1) + (d - 1) < (if leap y then 366 else 365).
Proof.
  cbn [valid]. intros [M D]. destruct (december y) as [L E]. destruct (Z.eq_dec m 12) as [->|].
  - change (12 - 1) with 11. rewrite E. destruct (leap y); lia.
  - pose proof (month_mono y m 12 ltac:(lia) ltac:(lia) ltac:(lia)) as H. change (12 - 1) with 11 in H. rewrite E in H.
    destruct (Z.eq_dec m 1) as [->|]; [change (1 - 1) with 0 in *; rewrite january in *; destruct (leap y); lia|].
    pose proof (month_mono y 1 m ltac:(lia) ltac:(lia) ltac:(lia)) as H1. change (1 - 1) with 0 in H1. rewrite january in H1.
    pose proof (length_pos y 1). destruct (leap y); lia.
Qed.
Lemma daynum_inj a b : valid a -> valid b -> daynum a = daynum b -> a = b.
Proof.
  destruct a as [[y m] d], b as [[y' m'] d']. intros Va Vb E. pose proof (in_year _ _ _ Va). pose proof (in_year _ _ _ Vb).
  cbn [daynum valid] in *. assert (y = y').
  { destruct (Z.lt_trichotomy y y') as [L|[L|L]]; [|exact L|]; apply year_mono in L; rewrite year_step in L;
      [destruct (leap y)|destruct (leap y')]; lia. }
  subst y'. assert (m = m').
  { destruct (Z.lt_trichotomy m m') as [L|[L|L]]; [|exact L|];
      [pose proof (month_mono y m m')|pose proof (month_mono y m' m)]; lia. }
  subst m'. f_equal. lia.
Qed.
Definition prev_day (c : Z * Z * Z) : Z * Z * Z :=
  let '(y, m, d) := c in
  if 1 <? d then (y, m, d - 1) else if 1 <? m then (y, m - 1, length_of_month y (m - 1)) else (y - 1, 12, 31).
Lemma prev_next c : valid c -> valid (prev_day c) /\ next_day (prev_day c) = c.
Proof.
  destruct c as [[y m] d]. cbn [valid prev_day]. intros [M D].
  destruct (Z.ltb_spec 1 d); [|destruct (Z.ltb_spec 1 m)]; cbn [valid next_day].
  - split; [lia|]. destruct (Z.ltb_spec (d - 1) (length_of_month y m)); [|lia]. f_equal. lia.
  - pose proof (length_pos y (m - 1)). split; [lia|]. rewrite Z.ltb_irrefl. destruct (Z.ltb_spec (m - 1) 12); [|lia].
    repeat f_equal; lia.
  - split; [cbn; lia|]. cbn. repeat f_equal; lia.
Qed.
Lemma every_day c : valid c -> is_day (daynum c) c.
Proof.
  intros V. remember (Z.to_nat (Z.abs (daynum c))) as k eqn:K. revert c V K.
  induction k as [|k IH]; intros c V K.
  - assert (c = (1970, 1, 1)) as -> by (apply daynum_inj; [exact V|cbn; lia|]; change (daynum (1970, 1, 1)) with 0; lia). constructor.
  - destruct (Z_lt_le_dec 0 (daynum c)) as [P|P].
    + destruct (prev_next c V) as [V' E]. pose proof (next_num _ V') as N. rewrite E in N.
      rewrite N. rewrite <- E at 2. constructor. apply IH; [exact V'|lia].
    + pose proof (next_num _ V) as N. replace (daynum c) with (daynum (next_day c) - 1) by lia.
      constructor; [exact V|]. apply IH; [now apply next_valid|lia].
Qed.

Theorem every_date c : valid c -> exists n, is_day n c /\ forall k, is_day k c -> k = n.
Proof. intros V. exists (daynum c). split; [now apply every_day|]. intros k H. apply is_day_num in H. lia. Qed.

(** ** make_time *)
(** What fits 64 bits in nanoseconds: 1677 .. 2262 *)
Definition fits (s : Z) : Prop := - 2 ^ 63 <= s * 10 ^ 9 < 2 ^ 63.
Lemma mktime_small off t : let y := tm_year t + 1900 + tm_mon t / 12 in
  let s := (days_before_year y + days_before_month (leap y) (tm_mon t mod 12) + (tm_mday t - 1) - epoch_days) * 86400
           + tm_hour t * 3600 + tm_min t * 60 + tm_sec t - off in
  - 86400 <= off <= 86400 -> fits s -> mktime off t = s.
Proof.
  cbv zeta. unfold mktime, fits. set (s := _ - off). intros O F.
  change (days_before_year (- 2 ^ 31 + 1900)) with (-784351602344). change (days_before_year (2 ^ 31 + 1900)) with 784352990265.
  unfold epoch_days. destruct (_ && _) eqn:E; [reflexivity|]. lia.
Qed.
(** With the month counted from zero the result is the date of the calendar: every day from 1677 to
    2262, any hours, minutes and seconds *)
Theorem make_time_zero_based off n y m d h mi sec :
  is_day n (y, m, d) -> - 86400 <= off <= 86400 -> Z.abs y < 2 ^ 30 ->
  let s := n * 86400 + h * 3600 + mi * 60 + sec - off in
  fits s -> make_time off y (m - 1) d h mi sec = Ok (s * 10 ^ 9).
Proof.
  cbv zeta. intros D O Y F. apply is_day_num in D as [[M D] N]. cbn [daynum] in N.
  unfold make_time. unfold guard at 1, int_ok. replace (_ && _) with true by lia. cbn [rbind].
  rewrite mktime_small; cbn [tm_year tm_mon tm_mday tm_hour tm_min tm_sec]; try assumption.
  all: replace ((m - 1) / 12) with 0 by lia; replace ((m - 1) mod 12) with (m - 1) by lia.
  all: replace (y - 1900 + 1900 + 0) with y by lia; rewrite N; try exact F.
  unfold guard, i64_ok. unfold fits in F. replace (_ && _) with true by lia. reflexivity.
Qed.
(** With the month of the calendar the result is late by the length of the month, always *)
Theorem make_time_late off n y m d h mi sec :
  is_day n (y, m, d) -> - 86400 <= off <= 86400 -> Z.abs y < 2 ^ 30 ->
  let s := (n + length_of_month y m) * 86400 + h * 3600 + mi * 60 + sec - off in
  fits s -> make_time off y m d h mi sec = Ok (s * 10 ^ 9).
Proof.
  cbv zeta. intros D O Y F. apply is_day_num in D as [[M D] N]. cbn [daynum] in N.
  unfold make_time. unfold guard at 1, int_ok. replace (_ && _) with true by lia. cbn [rbind].
  assert (K : days_before_year (y - 1900 + 1900 + m / 12) + days_before_month (leap (y - 1900 + 1900 + m / 12)) (m mod 12) + (d - 1) - epoch_days = n + length_of_month y m).
  { replace (y - 1900 + 1900 + m / 12) with (y + m / 12) by lia. destruct (Z.eq_dec m 12) as [->|N12].
    - change (12 / 12) with 1. change (12 mod 12) with 0. rewrite january, year_step.
      destruct (december y) as [L E]. change (12 - 1) with 11 in N. rewrite E in N. rewrite L. destruct (leap y); lia.
    - replace (m / 12) with 0 by lia. replace (m mod 12) with m by lia. rewrite Z.add_0_r, month_step by lia. lia. }
  rewrite mktime_small; cbn [tm_year tm_mon tm_mday tm_hour tm_min tm_sec]; try assumption; rewrite K; try exact F.
  unfold guard, i64_ok. unfold fits in F. replace (_ && _) with true by lia. reflexivity.
Qed.
Theorem make_time_calendar_refuted : exists n y m d, is_day n (y, m, d) /\ n = 0 /\ make_time 0 y m d 0 0 0 = Ok (31 * 86400 * 10 ^ 9).
Proof. exists 0, 1970, 1, 1. split; [constructor|]. split; reflexivity. Qed.
(** When mktime fails the caller gets the last second of 1969 *)
Theorem make_time_failure_refuted : exists y m, int_ok y = true /\ int_ok m = true /\ make_time 0 y m 1 0 0 0 = Ok (- 10 ^ 9).
Proof. exists (2 ^ 31 - 1), 100000. repeat split; vm_compute; reflexivity. Qed.
(** A date after 2262 is undefined *)
Theorem make_time_range_refuted : exists n y m d, is_day n (y, m, d) /\ make_time 0 y (m - 1) d 0 0 0 = UB.
Proof.
  assert (F : forall k, is_day (Z.of_nat k) (Nat.iter k next_day (1970, 1, 1))).
  { induction k as [|k IH]; [constructor|]. replace (Z.of_nat (S k)) with (Z.of_nat k + 1) by lia. cbn. now constructor. }
  exists (Z.of_nat (Z.to_nat 106752)), 2262, 4, 12. split; [|vm_compute; reflexivity].
  replace (2262, 4, 12) with (Nat.iter (Z.to_nat 106752) next_day (1970, 1, 1)); [apply F|].
  vm_compute. reflexivity.
Qed.
Theorem make_time_fraction off y m d h mi s tp fs : make_time off y m d h mi s = Ok tp -> - 2 ^ 63 <= tp + fs < 2 ^ 63 ->
  make_time_fs off y m d h mi s fs = Ok (tp + fs).
Proof. intros E F. unfold make_time_fs. rewrite E. cbn [rbind]. unfold guard, i64_ok. now replace (_ && _) with true by lia. Qed.

(** ** Durations *)
Definition value (t : list Z) : Z := fold_left (fun a c => a * 10 + (c - 48)) t 0.
Definition all_digits (t : list Z) : Prop := Forall (fun c => 48 <= c <= 57) t.
(** The text of a duration: [-]h:mm:ss.fffffffff *)
Definition duration_text (t : list Z) (ns : Z) : Prop :=
  exists sign H M S F,
    t = sign ++ H ++ [58] ++ M ++ [58] ++ S ++ [46] ++ F
    /\ all_digits H /\ all_digits M /\ all_digits S /\ all_digits F
    /\ (2 <= length H)%nat /\ length M = 2%nat /\ length S = 2%nat /\ length F = 9%nat
    /\ value M < 60 /\ value S < 60
    /\ let a := ((value H * 60 + value M) * 60 + value S) * 10 ^ 9 + value F in
       (sign = [] /\ ns = a) \/ (sign = [45] /\ ns = - a /\ 0 < a).
Lemma value_snoc t c : value (t ++ [c]) = value t * 10 + (c - 48).
Proof. unfold value. now rewrite fold_left_app. Qed.
Definition rvalue (ds : list Z) : Z := fold_right (fun d a => a * 10 + d) 0 ds.
Lemma value_rev ds : value (map (fun d => 48 + d) (rev ds)) = rvalue ds.
Proof.
  induction ds as [|d ds IH]; [reflexivity|]. cbn [rev rvalue fold_right]. rewrite map_app. cbn [map].
  rewrite value_snoc, IH. unfold rvalue. lia.
Qed.
Lemma rvalue_pad ds k : rvalue (ds ++ repeat 0 k) = rvalue ds.
Proof.
  unfold rvalue. rewrite fold_right_app. f_equal. induction k as [|k IH]; [reflexivity|]. cbn [repeat fold_right]. rewrite IH. reflexivity.
Qed.
Lemma rdigits_value f : forall v, 0 <= v < 10 ^ Z.of_nat f -> rvalue (rdigits f v) = v /\ Forall (fun d => 0 <= d <= 9) (rdigits f v).
Proof.
  induction f as [|f IH]; intros v Hv; cbn [rdigits].
  - cbn in Hv. split; [cbn; lia|constructor].
  - destruct (Z.ltb_spec v 10); [cbn; split; [lia|repeat constructor; lia]|].
    replace (Z.of_nat (S f)) with (Z.of_nat f + 1) in Hv by lia. rewrite Z.pow_add_r in Hv by lia.
    destruct (IH (v / 10)) as [E F]; [split; [lia|]; apply Z.div_lt_upper_bound; lia|].
    cbn [rvalue fold_right]. fold (rvalue (rdigits f (v / 10))). rewrite E. split; [lia|]. constructor; [lia|exact F].
Qed.
Lemma rdigits_length f : forall v w, (1 <= w)%nat -> 0 <= v < 10 ^ Z.of_nat w -> (length (rdigits f v) <= w)%nat.
Proof.
  induction f as [|f IH]; intros v w W Hv; cbn [rdigits]; [cbn; lia|].
  destruct (Z.ltb_spec v 10); [cbn; lia|]. cbn [length].
  destruct w as [|[|w]]; [lia|cbn in Hv; lia|].
  apply le_n_S. apply IH; [lia|]. replace (Z.of_nat (S (S w))) with (Z.of_nat (S w) + 1) in Hv by lia.
  rewrite Z.pow_add_r in Hv by lia. split; [lia|]. apply Z.div_lt_upper_bound; lia.
Qed.
Lemma put_spec w v : 0 <= v < 10 ^ 20 -> value (put w v) = v /\ all_digits (put w v) /\ (w <= length (put w v))%nat.
Proof.
  intros Hv. destruct (rdigits_value 20 v Hv) as [E F]. unfold put. rewrite value_rev, rvalue_pad. split; [exact E|]. split.
  - unfold all_digits. apply Forall_map, Forall_rev, Forall_app. split; [eapply Forall_impl; [|exact F]; cbv beta; intros; lia|].
    apply Forall_forall. intros x Hx. apply repeat_spec in Hx. subst x. lia.
  - rewrite map_length, rev_length, app_length, repeat_length. lia.
Qed.
Lemma put_length w v : (1 <= w)%nat -> 0 <= v < 10 ^ Z.of_nat w -> length (put w v) = w.
Proof.
  intros W Hv. unfold put. rewrite map_length, rev_length, app_length, repeat_length.
  pose proof (rdigits_length 20 v w W Hv). lia.
Qed.
(** The text of every duration (but the least, whose absolute value does not exist) is that duration *)
Theorem format_duration_spec ns : - 2 ^ 63 < ns < 2 ^ 63 -> exists t, format_duration ns = Ok t /\ duration_text t ns.
Proof.
  intros R. unfold format_duration, guard, i64_ok. replace (_ && _) with true by lia. cbn [rbind].
  eexists. split; [reflexivity|]. set (a := Z.abs ns). assert (A : a = Z.abs ns) by reflexivity. clearbody a.
  exists (if ns <? 0 then [45] else []), (put 2 (a / 10 ^ 9 / 3600)), (put 2 (a / 10 ^ 9 / 60 mod 60)), (put 2 (a / 10 ^ 9 mod 60)), (put 9 (a mod 10 ^ 9)).
  destruct (put_spec 2 (a / 10 ^ 9 / 3600)) as (V1 & D1 & L1); [lia|].
  destruct (put_spec 2 (a / 10 ^ 9 / 60 mod 60)) as (V2 & D2 & _); [lia|].
  destruct (put_spec 2 (a / 10 ^ 9 mod 60)) as (V3 & D3 & _); [lia|].
  destruct (put_spec 9 (a mod 10 ^ 9)) as (V4 & D4 & _); [lia|].
  rewrite (put_length 2 (a / 10 ^ 9 / 60 mod 60)), (put_length 2 (a / 10 ^ 9 mod 60)), (put_length 9), V1, V2, V3, V4
    by (change (Z.of_nat 2) with 2; change (Z.of_nat 9) with 9; lia).
  repeat (split; [first [reflexivity|assumption|lia]|]).
  destruct (Z.ltb_spec ns 0); [right|left]; (split; [reflexivity|]); lia.
Qed.
Lemma split_at (sep : Z) a : forall b x y, Forall (fun c => c <> sep) a -> Forall (fun c => c <> sep) b ->
  a ++ sep :: x = b ++ sep :: y -> a = b /\ x = y.
Proof.
  induction a as [|c a IH]; intros [|d b] x y Fa Fb E; cbn [app] in E; inversion Fa; inversion Fb; subst.
  - injection E as E. auto.
  - injection E as E1 E2. congruence.
  - injection E as E1 E2. congruence.
  - injection E as E1 E2. subst d. destruct (IH b x y) as [-> ->]; auto.
Qed.
Lemma digits_not sep t : all_digits t -> sep < 48 \/ 57 < sep -> Forall (fun c => c <> sep) t.
Proof. intros F S. eapply Forall_impl; [|exact F]. cbv beta. intros. lia. Qed.
(** A text belongs to one duration only *)
Theorem duration_text_unique t a b : duration_text t a -> duration_text t b -> a = b.
Proof.
  intros (s1 & H1 & M1 & S1 & F1 & E1 & DH1 & DM1 & DS1 & DF1 & LH1 & LM1 & LS1 & LF1 & _ & _ & A1)
         (s2 & H2 & M2 & S2 & F2 & E2 & DH2 & DM2 & DS2 & DF2 & LH2 & LM2 & LS2 & LF2 & _ & _ & A2).
  cbv zeta in A1, A2. rewrite E1 in E2. clear E1 t.
  assert (K : s1 = s2 /\ H1 ++ [58] ++ M1 ++ [58] ++ S1 ++ [46] ++ F1 = H2 ++ [58] ++ M2 ++ [58] ++ S2 ++ [46] ++ F2).
  { destruct A1 as [[-> _]|[-> _]], A2 as [[-> _]|[-> _]]; cbn [app] in E2.
    - auto.
    - destruct H1 as [|h H1]; [cbn in LH1; lia|]. cbn [app] in E2. injection E2 as -> _. inversion DH1. lia.
    - destruct H2 as [|h H2]; [cbn in LH2; lia|]. cbn [app] in E2. injection E2 as <- _. inversion DH2. lia.
    - injection E2 as E2. auto. }
  destruct K as [-> K]. cbn [app] in K.
  apply split_at in K as [-> K]; [|apply digits_not; [assumption|lia]..].
  apply split_at in K as [-> K]; [|apply digits_not; [assumption|lia]..].
  apply split_at in K as [-> ->]; [|apply digits_not; [assumption|lia]..].
  destruct A1 as [[? A1]|[? A1]], A2 as [[? A2]|[? A2]]; subst; try discriminate; lia.
Qed.
Theorem format_duration_injective a b t : - 2 ^ 63 < a < 2 ^ 63 -> - 2 ^ 63 < b < 2 ^ 63 ->
  format_duration a = Ok t -> format_duration b = Ok t -> a = b.
Proof.
  intros Ra Rb Ea Eb. destruct (format_duration_spec a Ra) as (t1 & E1 & D1), (format_duration_spec b Rb) as (t2 & E2 & D2).
  rewrite Ea in E1. rewrite Eb in E2. injection E1 as <-. injection E2 as <-. eapply duration_text_unique; eauto.
Qed.
(** The least duration is undefined *)
Theorem format_duration_min_refuted : exists ns, i64_ok ns = true /\ format_duration ns = UB.
Proof. exists (- 2 ^ 63). split; reflexivity. Qed.
Theorem format_duration_clang_spec ns : - 2 ^ 63 <= ns < 2 ^ 63 -> exists sign ds,
  format_duration_clang ns = sign ++ ds ++ [110; 115] /\ all_digits ds
  /\ ((sign = [] /\ ns = value ds) \/ (sign = [45] /\ ns = - value ds)).
Proof.
  intros R. unfold format_duration_clang. destruct (put_spec 1 (Z.abs ns)) as (V & D & _); [lia|].
  exists (if ns <? 0 then [45] else []), (put 1 (Z.abs ns)). split; [reflexivity|]. split; [exact D|]. rewrite V.
  destruct (Z.ltb_spec ns 0); [right|left]; (split; [reflexivity|lia]).
Qed.

Example make_time_demo : make_time 0 2019 6 17 16 31 13 = Ok (1563381073 * 10 ^ 9) /\ make_time 0 2019 7 17 16 31 13 = Ok (1566059473 * 10 ^ 9)
  /\ make_time 0 2019 12 1 0 0 0 = Ok (1577836800 * 10 ^ 9) /\ make_time 7200 1970 0 1 0 0 0 = Ok (-7200 * 10 ^ 9).
Proof. repeat split. Qed.
Example leap_demo : next_day (1970, 2, 28) = (1970, 3, 1) /\ next_day (2000, 2, 28) = (2000, 2, 29) /\ next_day (1900, 2, 28) = (1900, 3, 1).
Proof. repeat split. Qed.
Example format_duration_demo : format_duration (- (100 * 3600 + 2 * 60 + 3) * 10 ^ 9 - 45)
  = Ok [45; 49; 48; 48; 58; 48; 50; 58; 48; 51; 46; 48; 48; 48; 48; 48; 48; 48; 52; 53].
Proof. reflexivity. Qed.
