(** The command line of a test program (C59) and the values of attributes (C60). *)
From Coq Require Import ZifyBool ZifyNat String Ascii Sorted.
From Verif Require Import Common CmdLineModel CmdLineSpec CmdLineProofs.
Local Open Scope Z_scope.
Local Open Scope list_scope.

(** ** C59 *)
Lemma parse_stored o : clear_options o -> parse (typed o) = Ok (map stored o).
Proof. intros H. unfold parse. rewrite parse_complete; auto. Qed.
Lemma stored_find o n s : clear_options o -> fst (try_find (map stored o) n) = Some s <-> given o n s.
Proof.
  intros [Hn _]. pose proof (try_find_ok o n Hn) as K. split.
  - intros E. now rewrite E in K.
  - intros G. destruct (fst (try_find (map stored o) n)) as [s'|]; [f_equal; eapply given_unique; eauto|]. apply given_in in G. contradiction.
Qed.
(** What is typed can be found, and nothing else. *)
Theorem command_line_complete o : clear_options o ->
  exists m, parse (typed o) = Ok m /\ forall n s, fst (try_find m n) = Some s <-> given o n s.
Proof. intros H. exists (map stored o). split; [now apply parse_stored|]. intros. now apply stored_find. Qed.
(** Whatever is accepted has one meaning. *)
Theorem command_line_sound args m : parse args = Ok m ->
  exists o, clear_options o /\ args = typed o /\ forall n s, fst (try_find m n) = Some s <-> given o n s.
Proof.
  intros E. apply parse_sound in E; [|constructor|discriminate]. destruct E as (o & Ho & _ & [[-> ->]|(? & ? & ? & X & _)]); [|discriminate].
  exists o. split; [exact Ho|]. split; [reflexivity|]. intros. cbn [app]. now apply stored_find.
Qed.
(** Everything else is refused with a TestException. *)
Theorem command_line_refuses args : (forall o, clear_options o -> args <> typed o) -> parse args = Throw RuntimeError.
Proof.
  intros H. destruct (parse args) as [m|e|] eqn:E.
  - apply command_line_sound in E. destruct E as (o & Ho & -> & _). now destruct (H o Ho).
  - f_equal. unfold parse in E. revert E. generalize (@nil opt) (@None text). clear. induction args as [|a args IH]; intros m cur; cbn [parse_from]; [discriminate|].
    destruct (option_name a); [destruct (has_option m t); [congruence|apply IH]|]. destruct cur; [apply IH|congruence].
  - exfalso. unfold parse in E. revert E. generalize (@nil opt) (@None text). clear. induction args as [|a args IH]; intros m cur; cbn [parse_from]; [discriminate|].
    destruct (option_name a); [destruct (has_option m t); [discriminate|apply IH]|]. destruct cur; [apply IH|discriminate].
Qed.
(** The options that have never been asked for are printed at the end, and asking does not
    change what is found. *)
Theorem command_line_unused args m ns : parse args = Ok m ->
  exists o, clear_options o /\ args = typed o /\ (forall n s, fst (try_find (asked m ns) n) = Some s <-> given o n s) /\
    forall n, In n (unused (asked m ns)) <-> In n (map fst o) /\ ~ In n ns.
Proof.
  intros E. pose proof E as E'. apply command_line_sound in E. destruct E as (o & Ho & -> & F). exists o. rewrite parse_stored in E' by auto. injection E' as <-.
  split; [exact Ho|]. split; [reflexivity|]. split; [intros n s; rewrite asked_find; apply F|].
  assert (Hn : NoDup (map oname (map stored o))) by (rewrite map_map; apply Ho).
  assert (U : forall n, In n (unused (map stored o)) <-> In n (map fst o)).
  { intros n. unfold unused. clear. induction o as [|p o IH]; cbn; [tauto|]. rewrite IH. tauto. }
  intros n. rewrite <- U. clear U F Ho. revert Hn. generalize (map stored o). induction ns as [|k ns IH]; intros m Hn; [cbn; tauto|].
  cbn [asked fold_left]. fold (asked (snd (try_find m k)) ns). rewrite IH by (destruct (try_find_names m k) as [-> _]; exact Hn). rewrite unused_step by exact Hn. rewrite filter_In. cbn [In].
  destruct (text_eqb n k) eqn:E; cbn [negb].
  - apply text_eqb_eq in E. subst. intuition discriminate.
  - assert (k <> n) by (intros ->; rewrite text_eqb_refl in E; discriminate). intuition.
Qed.
(** Violated: an attribute may have any identifier as its name (AWT_ATTRIBUTE), but one of a
    single letter, or one that begins with _, can not be set by any command line. *)
Lemma only_long args m n : parse args = Ok m -> ~ long_name n -> fst (try_find m n) = None.
Proof.
  intros E Hn. apply command_line_sound in E. destruct E as (o & Ho & _ & F). destruct (fst (try_find m n)) as [s|] eqn:K; auto. apply F in K.
  apply given_in in K. apply in_map_iff in K. destruct K as (p & <- & Hp). destruct Ho as [_ Hf]. rewrite Forall_forall in Hf. destruct (Hf p Hp). contradiction.
Qed.
Definition str (s : string) : text := map (fun c => Z.of_nat (nat_of_ascii c)) (list_ascii_of_string s).
Theorem command_line_short_refuted : exists n1 n2 : text, n1 = str "n" /\ n2 = str "_limit" /\
  forall args m, parse args = Ok m -> fst (try_find m n1) = None /\ fst (try_find m n2) = None.
Proof.
  exists (str "n"), (str "_limit"). split; [reflexivity|]. split; [reflexivity|]. intros args m E. split; apply (only_long args m _ E); cbn; unfold letter; [tauto|lia].
Qed.
(** Violated: a value that looks like an option can not be passed at all. *)
Theorem command_line_value_refuted : exists v : text, v = str "--list" /\ forall args m n, parse args = Ok m -> fst (try_find m n) <> Some v.
Proof.
  exists (str "--list"). split; [reflexivity|]. intros args m n E K. apply command_line_sound in E. destruct E as (o & [_ Hf] & _ & F). apply F in K. rewrite Forall_forall in Hf. destruct K as [K|[K _]]; [|discriminate].
  destruct (Hf _ K) as [_ X]. apply (X (str "--list") (str "list") eq_refl); [|reflexivity]. cbn. unfold letter. repeat split; try lia; [discriminate|]. repeat constructor; lia.
Qed.
Example command_line_demo : match parse [str "--list"; str "--filter"; str "Vts.*"; str "--loop"; str "-1"] with
  | Ok m => fst (try_find m (str "list")) = Some [] /\ fst (try_find m (str "filter")) = Some (str "Vts.*") /\ fst (try_find m (str "run")) = None /\
            unused (asked m [str "filter"; str "run"]) = [str "list"; str "loop"]
  | _ => False end.
Proof. vm_compute. auto. Qed.
Example command_line_refused : parse [str "--list"; str "yes"; str "no"] = Throw RuntimeError /\ parse [str "--list"; str "--list"] = Throw RuntimeError /\ parse [str "--loop"; str "--n"; str "5"] = Throw RuntimeError.
Proof. vm_compute. auto. Qed.

(** ** C60 *)
(** What ToString writes is what FromString reads. *)
Theorem formatter_round_trip_partial t v : value_of t v -> plain t v -> from_string t (to_string t v) = Ok v.
Proof. apply format_round_trip. Qed.
(** A value that is passed on the command line is the value of the attribute, whatever its
    default and the other options are; *)
Theorem attribute_passed_partial t v o m n d : clear_options o -> parse (typed o) = Ok m -> In (n, Some (to_string t v)) o -> value_of t v -> plain t v ->
  fst (attribute m t n d) = v.
Proof.
  intros Ho E Hi Hv Hp. rewrite parse_stored in E by auto. injection E as <-. unfold attribute.
  assert (K : fst (try_find (map stored o) n) = Some (to_string t v)) by (apply stored_find; [auto|now left]). destruct (try_find (map stored o) n) as [f m1]. cbn [fst] in K. subst f.
  now rewrite format_round_trip.
Qed.
(** and without it the attribute has its default. *)
Theorem attribute_default t o m n d : clear_options o -> parse (typed o) = Ok m -> ~ In n (map fst o) -> fst (attribute m t n d) = d.
Proof.
  intros Ho E Hn. rewrite parse_stored in E by auto. injection E as <-. unfold attribute. pose proof (try_find_ok o n (proj1 Ho)) as K.
  destruct (try_find (map stored o) n) as [[f|] m1]; cbn [fst] in *; [|reflexivity]. apply given_in in K. contradiction.
Qed.
(** Every int, long, long long, unsigned long and unsigned long long can be passed. *)
Theorem attribute_number k z n d : long_name n -> within k z -> k <> FBool -> k <> FUInt ->
  exists m, parse [dashed n; put_int z] = Ok m /\ fst (attribute m (AScalar k) n d) = One (Num z).
Proof.
  intros Hn Hw K1 K2. assert (Hz : - 10 ^ 20 < z < 10 ^ 20) by (destruct k; cbn in Hw; lia).
  assert (Ho : clear_options [(n, Some (put_int z))]).
  { split; [repeat constructor; auto|]. constructor; [|constructor]. split; [exact Hn|]. intros v k' E _. cbn in E. injection E as <-. now apply put_int_dashed. }
  exists (map stored [(n, Some (put_int z))]). pose proof (parse_stored _ Ho) as P. split; [exact P|].
  apply attribute_passed_partial with (o := [(n, Some (put_int z))]); auto; [|destruct k; congruence || exact Logic.I].
  left. f_equal. f_equal. destruct k; [congruence| | | |]; reflexivity.
Qed.
(** Violated: an unsigned int that is not an int is silently replaced by the default, *)
Theorem attribute_unsigned_refuted : exists z, within FUInt z /\ forall n d, long_name n -> forall m, parse [dashed n; put_int z] = Ok m -> fst (attribute m (AScalar FUInt) n d) = d.
Proof.
  exists 3000000000. split; [cbn; lia|]. intros n d Hn m E.
  assert (Ho : clear_options [(n, Some (put_int 3000000000))]).
  { split; [repeat constructor; auto|]. constructor; [|constructor]. split; [exact Hn|]. intros v k' K _. cbn [snd] in K. injection K as <-. apply put_int_dashed; lia. }
  pose proof (parse_stored _ Ho) as P. cbn [typed flat_map fst snd app] in P. rewrite P in E. injection E as <-. unfold attribute. cbn [map try_find stored oname fst]. rewrite text_eqb_refl. reflexivity.
Qed.
(** a flag that is false is read as true, whatever its value is, *)
Theorem attribute_flag_refuted : exists s1 s2, s1 = str "false" /\ s2 = to_string (AScalar FBool) (One (Num 0)) /\
  from_string (AScalar FBool) s1 = Ok (One (Num 1)) /\ from_string (AScalar FBool) s2 = Ok (One (Num 1)).
Proof. exists (str "false"), []. auto. Qed.
(** strings with spaces fall apart, and empty ones are lost, *)
Theorem formatter_strings_refuted : exists v w, value_of (AVector EText) v /\ value_of (AVector EText) w /\
  from_string (AVector EText) (to_string (AVector EText) v) = Ok (Many [Txt (str "a"); Txt (str "b")]) /\ v = Many [Txt (str "a b")] /\
  from_string (AVector EText) (to_string (AVector EText) w) = Ok (Many []) /\ w = Many [Txt []].
Proof. exists (Many [Txt (str "a b")]), (Many [Txt []]). repeat split; repeat constructor. Qed.
(** texts that are not numbers are taken for numbers, negative ones for large ones. *)
Theorem attribute_malformed_refuted : exists s1 s2, s1 = str "12x" /\ s2 = str "-1" /\ from_string (AScalar FInt) s1 = Ok (One (Num 12)) /\
  from_string (AScalar FULong) s2 = Ok (One (Num (2 ^ 64 - 1))).
Proof. exists (str "12x"), (str "-1"). repeat split. Qed.
Example attribute_demo : match parse [str "--sizes"; str "10 -3 50"; str "--run"; str "cde a b a"; str "--loop"; str "7"] with
  | Ok m => fst (attribute m (AVector (ESigned 32)) (str "sizes") (Many [])) = Many [Num 10; Num (-3); Num 50] /\
            fst (attribute m (ASet EText) (str "run") (Many [])) = Many [Txt (str "a"); Txt (str "b"); Txt (str "cde")] /\
            fst (attribute m (AScalar FULong) (str "loop") (One (Num 0))) = One (Num 7) /\
            fst (attribute m (AScalar FLong) (str "timeout") (One (Num (-1)))) = One (Num (-1)) /\
            to_string (AVector (ESigned 32)) (Many [Num 10; Num (-3); Num 50]) = str "10 -3 50"
  | _ => False end.
Proof. vm_compute. auto 10. Qed.
