From Coq Require Import ZifyBool ZifyNat Sorted.
From Verif Require Import Common CmdLineModel CmdLineSpec.
Local Open Scope Z_scope.

Lemma text_eqb_eq a b : text_eqb a b = true <-> a = b.
Proof. revert b. induction a as [|x a IH]; intros [|y b]; cbn; try (split; congruence). rewrite andb_true_iff, IH, Z.eqb_eq. split; [intros [-> ->]; auto|intros E; injection E; auto]. Qed.
Lemma text_eqb_refl a : text_eqb a a = true. Proof. now apply text_eqb_eq. Qed.
Lemma text_eqb_neq a b : a <> b -> text_eqb a b = false.
Proof. intros H. destruct (text_eqb a b) eqn:E; auto. apply text_eqb_eq in E. contradiction. Qed.

(** ** The command line *)
Lemma alpha_letter c : alpha c = true <-> letter c.
Proof. unfold alpha, letter. lia. Qed.
Lemma word_ok c : word c = true <-> letter c \/ decimal c \/ c = 95.
Proof. unfold word, alpha, digit, letter, decimal. lia. Qed.
Lemma option_name_ok a n : option_name a = Some n <-> a = dashed n /\ long_name n.
Proof.
  unfold dashed. split.
  - destruct a as [|x [|y [|c r]]]; cbn; try discriminate. destruct (_ && _) eqn:E; [|discriminate]. intros K. injection K as <-.
    rewrite !andb_true_iff, !Z.eqb_eq in E. destruct E as ((((-> & ->) & Ha) & Hr) & Hw). split; auto. cbn. split; [now apply alpha_letter|].
    split; [destruct r; discriminate|]. rewrite forallb_forall in Hw. apply Forall_forall. intros z Hz. now apply word_ok, Hw.
  - intros [-> H]. destruct n as [|c r]; [contradiction|]. cbn in *. destruct H as (Ha & Hr & Hw). apply alpha_letter in Ha. rewrite Ha.
    assert (W : forallb word r = true) by (apply forallb_forall; intros z Hz; apply word_ok; rewrite Forall_forall in Hw; auto). rewrite W. now destruct r.
Qed.
Lemma option_name_none a : option_name a = None <-> forall n, long_name n -> a <> dashed n.
Proof.
  split.
  - intros H n Hn ->. assert (option_name (dashed n) = Some n) by (now apply option_name_ok). congruence.
  - intros H. destruct (option_name a) as [n|] eqn:E; auto. apply option_name_ok in E. destruct E as [-> Hn]. now destruct (H n Hn).
Qed.
Definition stored (p : text * option text) : opt := {| oname := fst p; oval := snd p; usage := 0 |}.
Lemma has_option_in m n : has_option m n = true <-> In n (map oname m).
Proof.
  unfold has_option. rewrite existsb_exists, in_map_iff. split; intros (o & H1 & H2); exists o.
  - apply text_eqb_eq in H2. auto.
  - split; auto. subst. apply text_eqb_refl.
Qed.
Lemma set_val_app m n v r : ~ In n (map oname m) -> set_val (m ++ [{| oname := n; oval := r; usage := 0 |}]) n v = m ++ [{| oname := n; oval := Some v; usage := 0 |}].
Proof.
  intros H. unfold set_val. rewrite map_app. cbn [map oname]. rewrite text_eqb_refl. f_equal. rewrite <- map_id. apply map_ext_in. intros o Ho.
  rewrite text_eqb_neq; auto. intros E. apply H. rewrite <- E. now apply in_map.
Qed.
Lemma parse_complete o : forall m cur, clear_options o -> (forall n, In n (map oname m) -> ~ In n (map fst o)) -> parse_from (typed o) m cur = Ok (m ++ map stored o).
Proof.
  induction o as [|[n v] o IH]; intros m cur [Hn Hf] Hd; cbn [typed flat_map fst snd map].
  - cbn. now rewrite app_nil_r.
  - cbn [map fst] in Hn. apply NoDup_cons_iff in Hn. destruct Hn as [Hi Hn]. apply Forall_cons_iff in Hf. destruct Hf as [[Hl Hv] Hf]. cbn [fst snd] in *.
    assert (Nm : ~ In n (map oname m)) by (intros X; apply (Hd n X); now left).
    cbn [app parse_from]. replace (option_name (dashed n)) with (Some n) by (symmetry; now apply option_name_ok).
    destruct (has_option m n) eqn:E; [apply has_option_in in E; contradiction|].
    assert (D : forall r, (forall k, In k (map oname (m ++ [{| oname := n; oval := r; usage := 0 |}])) -> ~ In k (map fst o))).
    { intros r k Hk. rewrite map_app in Hk. apply in_app_or in Hk. destruct Hk as [Hk|[<-|[]]]; [|exact Hi]. intros X. apply (Hd k Hk). now right. }
    destruct v as [v|].
    + cbn [app parse_from]. assert (Ov : option_name v = None) by (apply option_name_none; intros k Hk; now apply Hv). rewrite Ov, set_val_app by auto.
      rewrite (IH _ None (conj Hn Hf)) by apply D. now rewrite <- app_assoc.
    + cbn [app]. rewrite (IH _ (Some n) (conj Hn Hf)) by apply D. now rewrite <- app_assoc.
Qed.
Lemma parse_sound args : forall m cur m', NoDup (map oname m) -> (forall n, cur = Some n -> exists m0, m = m0 ++ [stored (n, None)]) -> parse_from args m cur = Ok m' ->
  exists o, clear_options o /\ (forall n, In n (map oname m) -> ~ In n (map fst o)) /\
    ((args = typed o /\ m' = m ++ map stored o) \/
     exists n m0 v, cur = Some n /\ m = m0 ++ [stored (n, None)] /\ option_name v = None /\ args = v :: typed o /\ m' = m0 ++ stored (n, Some v) :: map stored o).
Proof.
  induction args as [|a args IH]; intros m cur m' Hn Hc; cbn [parse_from].
  - intros E. injection E as <-. exists []. split; [split; constructor|]. split; [auto|]. left. cbn. now rewrite app_nil_r.
  - destruct (option_name a) as [n|] eqn:Ea.
    + destruct (has_option m n) eqn:Eh; [discriminate|]. assert (Nm : ~ In n (map oname m)) by (rewrite <- has_option_in, Eh; discriminate).
      intros E. apply IH in E.
      * destruct E as (o & Ho & Hd & E). apply option_name_ok in Ea. destruct Ea as [-> Hl].
        assert (Hno : ~ In n (map fst o)) by (apply Hd; rewrite map_app, in_app_iff; right; now left).
        destruct E as [[-> ->]|(k & m0 & v & Ek & Em & Ev & -> & ->)].
        -- exists ((n, None) :: o). destruct Ho as [Ho1 Ho2]. split; [split; [now constructor|constructor; [split; [exact Hl|discriminate]|exact Ho2]]|]. split.
           ++ intros k Hk [<-|X]; [now apply Nm|]. apply (Hd k); auto. rewrite map_app, in_app_iff. now left.
           ++ left. split; [reflexivity|]. cbn [map]. now rewrite <- app_assoc.
        -- injection Ek as <-. apply app_inj_tail in Em. destruct Em as [<- _]. exists ((n, Some v) :: o). destruct Ho as [Ho1 Ho2]. split; [split; [now constructor|constructor; [|exact Ho2]]|].
           ++ split; [exact Hl|]. cbn [snd]. intros v' k Ev' Hk. injection Ev' as <-. now apply option_name_none.
           ++ split.
              ** intros k Hk [<-|X]; [now apply Nm|]. apply (Hd k); auto. rewrite map_app, in_app_iff. now left.
              ** left. split; reflexivity.
      * rewrite map_app. cbn [map oname]. apply NoDup_Add with (a := n) (l := map oname m); [|auto]. rewrite <- (app_nil_r (map oname m)) at 1. apply Add_app.
      * intros k Ek. injection Ek as <-. now exists m.
    + destruct cur as [n|]; [|discriminate]. destruct (Hc n eq_refl) as [m0 ->]. rewrite map_app in Hn. cbn [map oname stored fst] in Hn.
      assert (Nm : ~ In n (map oname m0)) by (apply NoDup_remove_2 in Hn; rewrite app_nil_r in Hn; exact Hn).
      unfold stored in *. cbn [fst snd] in *. rewrite set_val_app by auto. intros E. apply IH in E; [|now rewrite map_app|discriminate].
      destruct E as (o & Ho & Hd & [[-> ->]|(k & ? & ? & X & _)]); [|discriminate]. exists o. split; [exact Ho|]. rewrite map_app in *. split; [exact Hd|]. right. exists n, m0, a. rewrite <- app_assoc. auto.
Qed.
Lemma try_find_ok o : forall n, NoDup (map fst o) ->
  match fst (try_find (map stored o) n) with Some s => given o n s | None => ~ In n (map fst o) end.
Proof.
  induction o as [|[k v] o IH]; intros n Hn; cbn [map try_find fst]; [auto|]. cbn [oname stored fst snd oval]. apply NoDup_cons_iff in Hn. destruct Hn as [Hi Hn].
  destruct (text_eqb k n) eqn:E.
  - apply text_eqb_eq in E. subst k. cbn [fst]. unfold given. destruct v; [left; now left|right; split; [reflexivity|now left]].
  - specialize (IH n Hn). destruct (try_find (map stored o) n) as [[s|] m1]; cbn [fst] in *.
    + unfold given in *. destruct IH as [X|[-> X]]; [left; now right|right; split; [reflexivity|now right]].
    + intros [X|X]; [|contradiction]. subst k. rewrite text_eqb_refl in E. discriminate.
Qed.
Lemma given_unique o n s s' : NoDup (map fst o) -> given o n s -> given o n s' -> s = s'.
Proof.
  intros Hn. induction o as [|[k v] o IH]; [intros [[]|[_ []]]|]. cbn [map fst] in Hn. apply NoDup_cons_iff in Hn. destruct Hn as [Hi Hn]. unfold given in *. cbn [In].
  assert (X : forall w, In (n, w) o -> k <> n) by (intros w Hw ->; apply Hi; now apply (in_map fst) in Hw).
  intros [[A|A]|[-> [A|A]]] [[B|B]|[-> [B|B]]]; try (inversion A; inversion B; congruence); try (inversion A; subst; exfalso; eapply X; eauto); try (inversion B; subst; exfalso; eapply X; eauto); auto.
Qed.
Lemma given_in o n s : given o n s -> In n (map fst o).
Proof. intros [H|[_ H]]; apply (in_map fst) in H; exact H. Qed.

(** The names that have been asked for. *)
Definition asked (m : list opt) (ns : list text) : list opt := fold_left (fun m n => snd (try_find m n)) ns m.
Lemma try_find_names m n : map oname (snd (try_find m n)) = map oname m /\ map oval (snd (try_find m n)) = map oval m.
Proof.
  induction m as [|o m [IH1 IH2]]; cbn [try_find]; auto. destruct (text_eqb (oname o) n); [cbn; auto|]. destruct (try_find m n) as [r m1]. cbn [snd map] in *. now rewrite IH1, IH2.
Qed.
Lemma try_find_same m : forall m' n, map oname m = map oname m' -> map oval m = map oval m' -> fst (try_find m n) = fst (try_find m' n).
Proof.
  induction m as [|o m IH]; intros [|o' m'] n E1 E2; try discriminate; auto. cbn [map] in *. injection E1 as A1 B1. injection E2 as A2 B2. cbn [try_find]. rewrite A1, A2.
  destruct (text_eqb (oname o') n); auto. specialize (IH m' n B1 B2). destruct (try_find m n), (try_find m' n). auto.
Qed.
Lemma asked_find ns : forall m n, fst (try_find (asked m ns) n) = fst (try_find m n).
Proof.
  unfold asked. induction ns as [|k ns IH]; intros m n; cbn; auto. rewrite IH. destruct (try_find_names m k). now apply try_find_same.
Qed.
Lemma unused_step m n : NoDup (map oname m) -> unused (snd (try_find m n)) = filter (fun k => negb (text_eqb k n)) (unused m).
Proof.
  unfold unused. induction m as [|o m IH]; cbn [try_find map filter]; intros Hn; auto. apply NoDup_cons_iff in Hn. destruct Hn as [Hi Hn].
  assert (D : forall r, (forall k, In k r -> k <> n) -> filter (fun k => negb (text_eqb k n)) r = r).
  { intros r. induction r as [|k r IHr]; intros Hk; cbn; auto. rewrite text_eqb_neq by (apply Hk; now left). cbn. f_equal. apply IHr. intros; apply Hk; now right. }
  destruct (text_eqb (oname o) n) eqn:E.
  - apply text_eqb_eq in E. cbn [snd filter Nat.eqb usage].
    assert (K : forall k, In k (map oname (filter (fun o => Nat.eqb (usage o) 0) m)) -> k <> n).
    { intros k Hk ->. rewrite <- E in Hk. apply in_map_iff in Hk. destruct Hk as (x & X & Hx). apply filter_In in Hx. apply Hi. rewrite <- X. now apply in_map. }
    destruct (Nat.eqb (usage o) 0); cbn [map filter]; [rewrite E, text_eqb_refl; cbn [negb]|]; now rewrite D.
  - destruct (try_find m n) as [r m1]. cbn [snd filter] in *. specialize (IH Hn). destruct (Nat.eqb (usage o) 0); cbn [map filter]; [rewrite E; cbn [negb]; now f_equal|exact IH].
Qed.

(** ** Numbers *)
Fixpoint num (n : Z) (ds : text) : Z := match ds with [] => n | c :: r => num (10 * n + (c - 48)) r end.
Definition digits (ds : text) : Prop := Forall (fun c => digit c = true) ds.
Definition no_digit (r : text) : Prop := match r with [] => True | c :: _ => digit c = false end.
Lemma num_app n a b : num n (a ++ b) = num (num n a) b.
Proof. revert n. induction a; cbn; auto. Qed.
Lemma put_uint_ok fuel : forall n acc, 0 <= n < 10 ^ Z.of_nat fuel -> (0 < fuel)%nat -> exists ds, put_uint fuel n acc = ds ++ acc /\ digits ds /\ num 0 ds = n /\ ds <> [].
Proof.
  induction fuel as [|fuel IH]; intros n acc Hn Hf; [lia|]. cbn [put_uint]. pose proof (Z.mod_pos_bound n 10 ltac:(lia)) as Hm.
  assert (Hd : digit (48 + n mod 10) = true) by (unfold digit; lia). destruct (n <? 10) eqn:E.
  - exists [48 + n mod 10]. cbn [app num]. repeat split; [constructor; auto|rewrite Z.mod_small; lia|discriminate].
  - rewrite Nat2Z.inj_succ, Z.pow_succ_r in Hn by lia. destruct fuel as [|fuel]; [cbn in Hn; lia|].
    destruct (IH (n / 10) ((48 + n mod 10) :: acc)) as (ds & E1 & E2 & E3 & E4); [split; [apply Z.div_pos; lia|apply Z.div_lt_upper_bound; lia]|lia|].
    exists (ds ++ [48 + n mod 10]). rewrite E1, <- app_assoc. split; [reflexivity|]. split; [apply Forall_app; split; [auto|now repeat constructor]|].
    split; [rewrite num_app, E3; cbn [num]; pose proof (Z.div_mod n 10); lia|]. intros X. destruct ds; discriminate.
Qed.
Lemma put_int_ok z : - 10 ^ 20 < z < 10 ^ 20 -> exists ds, put_int z = (if z <? 0 then [45] else []) ++ ds /\ digits ds /\ num 0 ds = Z.abs z /\ ds <> [].
Proof.
  intros Hz. unfold put_int. destruct (z <? 0) eqn:E.
  - destruct (put_uint_ok 20 (- z) []) as (ds & E1 & E2 & E3 & E4); [change (10 ^ Z.of_nat 20) with (10 ^ 20); lia|lia|]. exists ds. rewrite E1, app_nil_r. repeat split; auto. lia.
  - destruct (put_uint_ok 20 z []) as (ds & E1 & E2 & E3 & E4); [change (10 ^ Z.of_nat 20) with (10 ^ 20); lia|lia|]. exists ds. rewrite E1, app_nil_r. repeat split; auto. lia.
Qed.
Lemma take_digits_ok ds : forall n r, digits ds -> no_digit r -> take_digits (ds ++ r) n = (num n ds, r).
Proof.
  induction ds as [|c ds IH]; intros n r Hd Hr; cbn [app].
  - destruct r as [|c r]; cbn; auto. cbn in Hr. now rewrite Hr.
  - inversion Hd; subst. cbn [take_digits num]. rewrite H1. now apply IH.
Qed.
Lemma strto_put z r : - 10 ^ 20 < z < 10 ^ 20 -> no_digit r -> strto (put_int z ++ r) = Some (z <? 0, Z.abs z, r).
Proof.
  intros Hz Hr. destruct (put_int_ok z Hz) as (ds & -> & Hd & Hv & Hn). destruct ds as [|d ds]; [congruence|].
  assert (D : digit d = true) by (now inversion Hd). unfold strto. destruct (z <? 0) eqn:E; cbn [app skip_space].
  - change (space 45) with false. cbv iota. change (45 =? 45) with true. cbv iota. rewrite D.
    change (d :: ds ++ r) with ((d :: ds) ++ r). rewrite take_digits_ok by auto. now rewrite Hv.
  - assert (S : space d = false) by (unfold space, digit in *; lia). rewrite S. destruct (d =? 45) eqn:E1; [unfold digit in D; lia|]. destruct (d =? 43) eqn:E2; [unfold digit in D; lia|]. rewrite D.
    change (d :: ds ++ r) with ((d :: ds) ++ r). rewrite take_digits_ok by auto. now rewrite Hv.
Qed.
Lemma strto_space s : strto (32 :: s) = strto s. Proof. reflexivity. Qed.
Lemma signed_abs z : (if z <? 0 then - Z.abs z else Z.abs z) = z. Proof. destruct (z <? 0) eqn:E; lia. Qed.
Lemma scalar_round_trip k z : within k z -> plain (AScalar k) (One (Num z)) -> scalar_from_string k (scalar_to_string k z) = Ok z.
Proof.
  intros Hw Hp. assert (Hz : - 10 ^ 20 < z < 10 ^ 20) by (destruct k; cbn in Hw; lia). pose proof (strto_put z [] Hz Logic.I) as K. rewrite app_nil_r in K.
  destruct k; cbn [scalar_to_string scalar_from_string]; unfold sto, stou; try rewrite K, signed_abs; cbn in Hw, Hp.
  - now subst.
  - replace ((- 2 ^ 31 <=? z) && (z <? 2 ^ 31)) with true by lia. reflexivity.
  - replace ((- 2 ^ 31 <=? z) && (z <? 2 ^ 31)) with true by lia. cbn [rbind]. rewrite Z.mod_small by lia. reflexivity.
  - replace ((- 2 ^ 63 <=? z) && (z <? 2 ^ 63)) with true by lia. reflexivity.
  - replace (Z.abs z <? 2 ^ 64) with true by lia. rewrite Z.mod_small by lia. reflexivity.
Qed.

(** ** Collections *)
Definition ends (r : text) : Prop := match r with [] => True | c :: _ => c = 32 end.
Lemma ends_no_digit r : ends r -> no_digit r. Proof. destruct r; cbn; auto. now intros ->. Qed.
Lemma space_white c : space c = true <-> white c. Proof. unfold space, white. lia. Qed.
Lemma take_word_ok w : forall r, Forall (fun c => ~ white c) w -> ends r -> take_word (w ++ r) = (w, r).
Proof.
  induction w as [|c w IH]; intros r Hw Hr; cbn [app].
  - destruct r as [|c r]; cbn; auto. cbn in Hr. now subst.
  - inversion Hw; subst. cbn [take_word]. destruct (space c) eqn:E; [apply space_white in E; contradiction|]. now rewrite IH.
Qed.
Lemma pow_small b : 1 <= b <= 64 -> 2 ^ (b - 1) < 10 ^ 20 /\ 2 ^ b < 10 ^ 20.
Proof. intros H. split; (eapply Z.le_lt_trans; [apply (Z.pow_le_mono_r 2 _ 64); lia|reflexivity]). Qed.
Lemma extract_ok e a r : elem_within e a -> elem_plain a e -> ends r -> extract e (elem_to_string a e ++ r) = Some (a, r).
Proof.
  intros Hw Hp Hr. pose proof (ends_no_digit r Hr) as Hd. destruct e, a as [z|s]; cbn in Hw, Hp; try contradiction; cbn [elem_to_string extract].
  - rewrite strto_put by (auto; lia). destruct Hw as [-> | ->]; reflexivity.
  - destruct Hw as [Hb Hw]. pose proof (pow_small bits Hb). rewrite strto_put by (auto; lia). rewrite signed_abs. now replace ((- 2 ^ (bits - 1) <=? z) && (z <? 2 ^ (bits - 1))) with true by lia.
  - destruct Hw as [Hb Hw]. pose proof (pow_small bits Hb). rewrite strto_put by (auto; lia). rewrite signed_abs. replace (Z.abs z <? 2 ^ bits) with true by lia. now rewrite Z.mod_small by lia.
  - cbn [app skip_space]. destruct (space z) eqn:E; [apply space_white in E; contradiction|reflexivity].
  - destruct Hp as [Hn Hp]. destruct s as [|c s]; [congruence|]. assert (S : space c = false) by (destruct (space c) eqn:E; auto; apply space_white in E; inversion Hp; contradiction).
    assert (K : skip_space ((c :: s) ++ r) = (c :: s) ++ r) by (cbn [app skip_space]; now rewrite S). rewrite K, take_word_ok by auto. reflexivity.
Qed.
Lemma extract_space e s : extract e (32 :: s) = extract e s. Proof. destruct e; reflexivity. Qed.
Lemma extract_nil e : extract e [] = None. Proof. destruct e; reflexivity. Qed.
Lemma elem_nonempty a e : elem_within e a -> elem_plain a e -> elem_to_string a e <> [].
Proof.
  intros Hw Hp. destruct e, a as [z|s]; cbn in Hw, Hp; try contradiction; cbn [elem_to_string]; try discriminate; try tauto.
  - destruct (put_int_ok z ltac:(lia)) as (ds & -> & _ & _ & Hn). destruct (z <? 0); destruct ds; cbn; congruence.
  - destruct Hw as [Hb Hw]. pose proof (pow_small bits Hb). destruct (put_int_ok z ltac:(lia)) as (ds & -> & _ & _ & Hn). destruct (z <? 0); destruct ds; cbn; congruence.
  - destruct Hw as [Hb Hw]. pose proof (pow_small bits Hb). destruct (put_int_ok z ltac:(lia)) as (ds & -> & _ & _ & Hn). destruct (z <? 0); destruct ds; cbn; congruence.
Qed.
Lemma extract_all_ok e l : forall fuel, Forall (elem_within e) l -> Forall (fun a => elem_plain a e) l -> (List.length l <= fuel)%nat -> extract_all e fuel (join (map (fun a => elem_to_string a e) l)) = l.
Proof.
  induction l as [|a l IH]; intros fuel Hw Hp Hf.
  - cbn [map join]. destruct fuel; cbn [extract_all]; [reflexivity|]. now rewrite extract_nil.
  - apply Forall_cons_iff in Hw, Hp. destruct Hw as [Ha Hw], Hp as [Pa Hp]. destruct fuel as [|fuel]; [cbn in Hf; lia|]. cbn [List.length] in Hf. destruct l as [|b l].
    + cbn [map join extract_all]. rewrite <- (app_nil_r (elem_to_string a e)), extract_ok by (cbn; auto). destruct fuel; cbn [extract_all]; [reflexivity|]. now rewrite extract_nil.
    + cbn [map join] in *. cbn [extract_all]. rewrite extract_ok by (cbn; auto). f_equal. rewrite <- (IH fuel Hw Hp) by lia. destruct fuel as [|fuel]; [cbn in Hf; lia|]. cbn [extract_all]. now rewrite extract_space.
Qed.
Lemma join_length e l : Forall (elem_within e) l -> Forall (fun a => elem_plain a e) l -> (List.length l <= List.length (join (map (fun a => elem_to_string a e) l)))%nat.
Proof.
  induction l as [|a l IH]; intros Hw Hp; [auto|]. apply Forall_cons_iff in Hw, Hp. destruct Hw as [Ha Hw], Hp as [Pa Hp]. specialize (IH Hw Hp). pose proof (elem_nonempty a e Ha Pa) as Hn.
  destruct l as [|b l]; cbn [map join] in *.
  - destruct (elem_to_string a e); [congruence|]. cbn. lia.
  - rewrite app_length. cbn [List.length] in *. lia.
Qed.
Lemma text_ltb_asym a : forall b, text_ltb a b = true -> text_ltb b a = false.
Proof. induction a as [|x a IH]; intros [|y b]; cbn; auto; try discriminate. intros H. destruct (Z.ltb_spec x y), (Z.ltb_spec y x), (Z.eqb_spec x y), (Z.eqb_spec y x); cbn in *; try lia; auto; try discriminate. Qed.
Lemma atom_ltb_asym a b : atom_ltb a b = true -> atom_ltb b a = false.
Proof. destruct a, b; cbn; auto; try discriminate; [lia|apply text_ltb_asym]. Qed.
Lemma set_insert_last a l : Forall (fun b => less b a) l -> set_insert a l = l ++ [a].
Proof. induction 1 as [|b l Hb Hl IH]; cbn; auto. rewrite (atom_ltb_asym _ _ Hb). unfold less in Hb. now rewrite Hb, IH. Qed.
Lemma set_fill l : forall acc, StronglySorted less (acc ++ l) -> fold_left (fun l a => set_insert a l) l acc = acc ++ l.
Proof.
  induction l as [|a l IH]; intros acc Hs; cbn [fold_left]; [now rewrite app_nil_r|]. rewrite set_insert_last.
  - rewrite IH by (now rewrite <- app_assoc). now rewrite <- app_assoc.
  - clear IH. induction acc as [|b acc IH]; [constructor|]. cbn [app] in Hs. apply StronglySorted_inv in Hs. destruct Hs as [Hs Hb]. constructor; [|auto]. rewrite Forall_forall in Hb. apply Hb, in_or_app. right. now left.
Qed.
Lemma format_round_trip t v : value_of t v -> plain t v -> from_string t (to_string t v) = Ok v.
Proof.
  intros Hv Hp. destruct t as [k| |e|e], v as [[z|s]|l]; cbn [value_of] in Hv; try contradiction; cbn [to_string from_string]; auto.
  - rewrite (scalar_round_trip k z Hv Hp). reflexivity.
  - rewrite extract_all_ok; auto. now apply join_length.
  - destruct Hv as [Hv Hs]. rewrite extract_all_ok; auto; [|now apply join_length]. now rewrite set_fill.
Qed.
(** Numbers do not look like options. *)
Lemma put_int_dashed z n : - 10 ^ 20 < z < 10 ^ 20 -> put_int z <> dashed n.
Proof.
  intros Hz E. destruct (put_int_ok z Hz) as (ds & K & Hd & _ & Hn). rewrite K in E. unfold dashed in E. destruct (z <? 0); cbn in E.
  - injection E as ->. inversion Hd; subst. unfold digit in *. lia.
  - subst ds. inversion Hd; subst. unfold digit in *. lia.
Qed.
