(** Sequential enums (C67). *)
From Coq Require Import ZifyBool ZifyNat.
From Verif Require Import Common MemberListModel MemberListProps EnumModel.
From Verif Require CompareModel CompareProps.
Local Open Scope Z_scope.

(** ** What is expected: the enumerators are numbered in the order of their names. *)
Definition sequential (ids : list (list nat)) : list item := map (fun n => {| iname := n; ival := None |}) ids.
Definition declared (ids : list (list nat)) : Prop := Forall identifier ids /\ NoDup ids /\ ids <> [] /\ (length ids < 256)%nat.
Definition name_of (s : list nat) : list Z := map Z.of_nat s.

Lemma values_seq ids : forall k, values k (sequential ids) = seq k (length ids).
Proof. induction ids as [|n ids IH]; intros k; cbn; auto. f_equal. apply IH. Qed.
Lemma count_ok ids : count (sequential ids) = length ids.
Proof. unfold count. rewrite values_seq. destruct ids as [|n ids] using rev_ind; auto. rewrite app_length. cbn [length]. rewrite Nat.add_1_r, seq_S, rev_app_distr. cbn. lia. Qed.
Lemma va_ok ids : va_args (sequential ids) = join ids.
Proof. induction ids as [|a ids IH]; auto. destruct ids as [|b ids]; [cbn; apply app_nil_r|]. cbn [sequential map va_args join] in *. rewrite IH. unfold item_text. cbn [iname ival]. now rewrite app_nil_r. Qed.
Lemma names_ok ids : declared ids -> names (sequential ids) = Ok (map name_of ids).
Proof. intros (F & _). unfold names. rewrite va_ok, reflect_names; auto. Qed.
Lemma name_inj a b : name_of a = name_of b -> a = b.
Proof. revert b. induction a as [|x a IH]; intros [|y b] H; try discriminate; auto. injection H as H1 H2. f_equal; [lia|auto]. Qed.

(** The scan finds the first name that is equal. *)
Lemma scan_ok eq ns : forall k, (k + length ns <= 256)%nat -> (forall n, In n ns -> exists b, eq n = Ok b) ->
  match scan eq ns k with
  | Ok i => exists j, i = (k + j)%nat /\ (exists n, nth_error ns j = Some n /\ eq n = Ok true) /\ forall j' n, (j' < j)%nat -> nth_error ns j' = Some n -> eq n = Ok false
  | Throw e => e = RuntimeError /\ forall n, In n ns -> eq n = Ok false
  | UB => False
  end.
Proof.
  induction ns as [|n ns IH]; intros k L T; cbn [scan]; [split; auto; contradiction|]. cbn [length] in L. destruct (T n) as (b & Eb); [now left|]. rewrite Eb. cbn [rbind]. destruct b.
  - exists 0%nat. split; [lia|]. split; [exists n; auto|]. intros; lia.
  - destruct ns as [|n' ns]; [cbn [scan]; split; auto; intros m [<-|[]]; auto|]. cbn [length] in L. rewrite Nat.mod_small by lia. specialize (IH (k + 1)%nat ltac:(cbn [length]; lia) ltac:(intros; apply T; now right)).
    destruct (scan eq (n' :: ns) (k + 1)%nat) as [i|e|]; auto.
    + destruct IH as (j & -> & (m & M1 & M2) & Q). exists (S j). split; [lia|]. split; [exists m; auto|]. intros [|j'] m' Hj Hm; cbn [nth_error] in Hm; [congruence|]. eapply Q; eauto. lia.
    + destruct IH as (-> & Q). split; auto. intros m [<-|Hm]; auto.
Qed.

(** ** Theorems *)
(** Enumerators and indices are the same numbers, and others are refused. *)
Theorem enum_index ids v : declared ids ->
  let r := if (v <? length ids)%nat then Ok v else Throw RuntimeError in
  enum_to_index (sequential ids) v = r /\ enum_from_index (sequential ids) v = r /\
  (validate_enum (sequential ids) v = Ok tt <-> r = Ok v) /\ (validate_enum (sequential ids) v = Throw RuntimeError <-> r = Throw RuntimeError).
Proof.
  intros D. unfold enum_to_index, enum_from_index, validate_enum_index, validate_enum. rewrite count_ok. destruct (Nat.ltb_spec v (length ids)), (Nat.leb_spec (length ids) v); try lia; cbn [rbind]; repeat split; auto; discriminate.
Qed.
(** The string of an enumerator is its name; a number that is not an enumerator is refused. *)
Theorem enum_string ids v : declared ids -> enum_to_string (sequential ids) v = match nth_error ids v with Some n => Ok (name_of n) | None => Throw RuntimeError end.
Proof.
  intros D. unfold enum_to_string, enum_to_index. rewrite count_ok, names_ok by auto. destruct (Nat.leb_spec (length ids) v) as [H|H].
  - cbn [rbind]. apply nth_error_None in H. now rewrite H.
  - cbn [rbind]. rewrite nth_error_map. destruct (nth_error ids v) eqn:E; auto. apply nth_error_None in E. lia.
Qed.
(** A string is the enumerator with this name, and other strings are refused. *)
Theorem enum_parse ids s v : declared ids ->
  (enum_from_string (sequential ids) s = Ok v <-> enum_to_string (sequential ids) v = Ok s) /\
  ((forall u, enum_to_string (sequential ids) u <> Ok s) -> enum_from_string (sequential ids) s = Throw RuntimeError).
Proof.
  intros D. rewrite enum_string by auto. assert (ES : forall a b, Ok (string_equal a b) = Ok true <-> a = b) by (intros a b; unfold string_equal; destruct (list_eq_dec _ _ _); split; congruence).
  assert (K : match enum_from_string (sequential ids) s with Ok i => exists n, nth_error ids i = Some n /\ name_of n = s | Throw e => e = RuntimeError /\ ~ In s (map name_of ids) | UB => False end).
  { unfold enum_from_string. rewrite names_ok by auto. cbn [rbind]. destruct D as (_ & _ & _ & L). pose proof (scan_ok (fun n => Ok (string_equal n s)) (map name_of ids) 0) as Q. specialize (Q ltac:(rewrite map_length; lia) ltac:(eauto)).
    destruct (scan _ _ _) as [i|e|]; auto.
    - destruct Q as (j & -> & (n & N1 & N2) & _). rewrite nth_error_map in N1. cbn [Nat.add]. destruct (nth_error ids j) as [m|]; [|discriminate]. exists m. split; auto. apply ES in N2. cbn in N1. congruence.
    - destruct Q as (-> & Q). split; auto. intros H. specialize (Q s H). assert (X : Ok (string_equal s s) = Ok true) by (now apply ES). cbv beta in Q. congruence. }
  split.
  - split.
    + intros X. rewrite X in K. destruct K as (n & -> & ->). auto.
    + destruct (nth_error ids v) as [n|] eqn:En; [|discriminate]. intros X. injection X as <-. destruct (enum_from_string _ _) as [i|e|]; [|destruct K as (_ & K); destruct K; apply in_map; eapply nth_error_In; eauto|contradiction].
      destruct K as (m & Em & H). apply name_inj in H. subst m. destruct D as (_ & D & _). f_equal. rewrite NoDup_nth_error in D. apply D; [apply nth_error_Some; congruence|congruence].
  - intros H. destruct (enum_from_string _ _) as [i|e|]; [|destruct K; now subst|contradiction]. destruct K as (n & En & Es). destruct (H i). rewrite enum_string by auto. now rewrite En, Es.
Qed.
(** Without regard to case it is the first enumerator whose name agrees, if the characters
    of the string are ones of std::tolower. *)
Theorem enum_parse_i lower ids s : declared ids -> CompareProps.plain s ->
  match enum_from_string_i (sequential ids) lower s with
  | Ok i => (exists n, nth_error ids i = Some n /\ map lower (name_of n) = map lower s) /\ forall j n, (j < i)%nat -> nth_error ids j = Some n -> map lower (name_of n) <> map lower s
  | Throw e => e = RuntimeError /\ forall n, In n ids -> map lower (name_of n) <> map lower s
  | UB => False
  end.
Proof.
  intros D Hs. unfold enum_from_string_i. rewrite names_ok by auto. cbn [rbind]. destruct D as (F & _ & _ & L).
  assert (P : forall n, In n ids -> CompareProps.plain (name_of n)).
  { intros n Hn. rewrite Forall_forall in F. destruct (F n Hn) as [_ I]. unfold CompareProps.plain, name_of. apply Forall_map. eapply Forall_impl; [|exact I]. unfold id_char. intros c Hc. lia. }
  assert (Q0 : forall n, In n ids -> exists b, CompareModel.insensitive_equal lower (name_of n) s = Ok b /\ (b = true <-> map lower (name_of n) = map lower s)) by (intros n Hn; apply CompareProps.insensitive_equal_spec; auto).
  pose proof (scan_ok (fun n => CompareModel.insensitive_equal lower n s) (map name_of ids) 0) as Q. specialize (Q ltac:(rewrite map_length; lia)).
  assert (T : forall n, In n (map name_of ids) -> exists b, CompareModel.insensitive_equal lower n s = Ok b). { intros n Hn. apply in_map_iff in Hn as (m & <- & Hm). destruct (Q0 m Hm) as (b & Eb & _). eauto. }
  specialize (Q T). cbv beta in Q. destruct (scan _ _ _) as [i|e|]; auto.
  - destruct Q as (j & -> & (n & N1 & N2) & R). cbn [Nat.add]. rewrite nth_error_map in N1. destruct (nth_error ids j) as [m|] eqn:Em; [|discriminate]. cbn in N1. injection N1 as <-. split.
    + exists m. split; auto. destruct (Q0 m) as (b & Eb & Hb); [eapply nth_error_In; eauto|]. apply Hb. congruence.
    + intros k m' Hk Em' X. destruct (Q0 m') as (b & Eb & Hb); [eapply nth_error_In; eauto|]. apply Hb in X. subst b. specialize (R k (name_of m') Hk). rewrite nth_error_map, Em' in R. specialize (R eq_refl). cbv beta in R. congruence.
  - destruct Q as (-> & R). split; auto. intros m Hm X. destruct (Q0 m Hm) as (b & Eb & Hb). apply Hb in X. subst b. specialize (R (name_of m) (in_map name_of _ _ Hm)). cbv beta in R. congruence.
Qed.
(** So if no two names differ in case only, every spelling of a name is its enumerator. *)
Corollary enum_round_trip_i_partial lower ids v n s : declared ids -> NoDup (map (fun n => map lower (name_of n)) ids) -> CompareProps.plain s -> nth_error ids v = Some n -> map lower s = map lower (name_of n) ->
  enum_from_string_i (sequential ids) lower s = Ok v.
Proof.
  intros D N P En Es. pose proof (enum_parse_i lower ids s D P) as K. destruct (enum_from_string_i _ _ _) as [i|e|]; [|destruct K as (_ & K); destruct (K n); auto; eapply nth_error_In; eauto|contradiction].
  destruct K as ((m & Em & Hm) & _). f_equal. rewrite NoDup_nth_error in N. apply N; [rewrite map_length; apply nth_error_Some; congruence|]. rewrite !nth_error_map, Em, En. cbn. congruence.
Qed.
(** Violated: if two names differ in case only, the second one is read as the first; *)
Theorem enum_case_refuted : exists ids lower v s, declared ids /\ enum_to_string (sequential ids) v = Ok s /\ enum_from_string_i (sequential ids) lower s = Ok 0%nat /\ v <> 0%nat.
Proof.
  exists [[97]; [65]]%nat, (fun c => if (65 <=? c) && (c <=? 90) then c + 32 else c), 1%nat, [65]. split; [|repeat split; auto].
  split; [repeat constructor; try discriminate; unfold id_char; lia|]. split; [repeat constructor; cbn; intuition discriminate|]. split; [discriminate|cbn; lia].
Qed.
(** an initializer compiles, and the string of the enumerator is another one, or read beyond
    the end of the list. *)
Theorem enum_initializer_refuted : exists l v, compiles l /\ In v (values 0 l) /\ enum_to_string l v = UB.
Proof.
  exists [{| iname := [65]%nat; ival := None |}; {| iname := [66]%nat; ival := Some 7%nat |}], 7%nat. split; [|split; [cbn; auto|reflexivity]].
  split; [repeat constructor|]. split; [cbn; lia|]. split; [repeat constructor; cbn; intuition discriminate|discriminate].
Qed.
Example enum_demo : let e := sequential [[82; 101; 100]; [71; 114; 101; 101; 110]; [66; 108; 117; 101]]%nat in
  enum_to_string e 1 = Ok [71; 114; 101; 101; 110] /\ enum_from_string e [66; 108; 117; 101] = Ok 2%nat /\ enum_from_string e [98; 108; 117; 101] = Throw RuntimeError /\
  enum_from_string_i e (fun c => if (65 <=? c) && (c <=? 90) then c + 32 else c) [98; 76; 117; 101] = Ok 2%nat /\ enum_to_string e 3 = Throw RuntimeError.
Proof. repeat split. Qed.
