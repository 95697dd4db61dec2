(** String conversions (C85). *)
From Verif Require Import Common TextConvModel.
From Coq Require Import ZifyBool ZifyNat Lia.
Local Open Scope Z_scope.
Ltac Zify.zify_post_hook ::= Z.to_euclidean_division_equations.

(** ** Specification *)
(** The part of a string before its first zero *)
Definition before_zero (s p : list Z) : Prop :=
  ~ In 0 p /\ (s = p \/ exists t, s = p ++ 0 :: t).
(** The characters of Unicode *)
Definition scalar (w : Z) : Prop := 0 <= w <= 0xD7FF \/ 0xE000 <= w <= 0x10FFFF.
Definition ascii (w : Z) : Prop := 0 <= w < 128.
Definition cont (b : Z) : Prop := 0x80 <= b <= 0xBF.
(** Table 3-7 of the Unicode standard: well-formed UTF-8 byte sequences *)
Inductive wf_char : list Z -> Prop :=
| wf1 b : 0 <= b <= 0x7F -> wf_char [b]
| wf2 b c : 0xC2 <= b <= 0xDF -> cont c -> wf_char [b; c]
| wf3a c d : 0xA0 <= c <= 0xBF -> cont d -> wf_char [0xE0; c; d]
| wf3b b c d : 0xE1 <= b <= 0xEC \/ 0xEE <= b <= 0xEF -> cont c -> cont d -> wf_char [b; c; d]
| wf3c c d : 0x80 <= c <= 0x9F -> cont d -> wf_char [0xED; c; d]
| wf4a c d e : 0x90 <= c <= 0xBF -> cont d -> cont e -> wf_char [0xF0; c; d; e]
| wf4b b c d e : 0xF1 <= b <= 0xF3 -> cont c -> cont d -> cont e -> wf_char [b; c; d; e]
| wf4c c d e : 0x80 <= c <= 0x8F -> cont d -> cont e -> wf_char [0xF4; c; d; e].
Definition well_formed (bs : list Z) : Prop := exists cs, Forall wf_char cs /\ bs = concat cs.
(** What the two locales can convert *)
Definition bytes_ok (l : locale) (bs : list Z) : Prop :=
  match l with CLocale => Forall ascii bs | Utf8 => well_formed bs end.
Definition chars_ok (l : locale) (ws : list Z) : Prop :=
  match l with CLocale => Forall ascii ws | Utf8 => Forall scalar ws end.

(** ** Zeros *)
Lemma c_str_spec s : before_zero s (c_str s).
Proof.
  induction s as [|c s [H1 H2]]; cbn [c_str].
  - split; [intros []|now left].
  - destruct (Z.eqb_spec c 0) as [->|N].
    + split; [intros []|right; now exists s].
    + split.
      * intros [E|E]; [congruence|auto].
      * destruct H2 as [H2|[t H2]]; [left; now rewrite H2 at 1|right; exists t; cbn; now rewrite H2 at 1].
Qed.
Lemma before_zero_unique s p : before_zero s p -> p = c_str s.
Proof.
  revert p; induction s as [|c s IH]; intros p [H1 H2]; cbn [c_str].
  - destruct H2 as [<-|[t E]]; [reflexivity|]. now destruct p.
  - destruct (Z.eqb_spec c 0) as [->|N].
    + destruct p as [|c' p]; [reflexivity|]. exfalso. apply H1. left.
      destruct H2 as [E|[t E]]; cbn in E; congruence.
    + destruct p as [|c' p].
      * destruct H2 as [E|[t E]]; cbn in E; congruence.
      * assert (c' = c) as -> by (destruct H2 as [E|[t E]]; cbn in E; congruence).
        f_equal. apply IH. split; [intros E; apply H1; now right|].
        destruct H2 as [E|[t E]]; cbn in E; injection E as E; [left|right; exists t]; exact E.
Qed.
Lemma c_str_id s : ~ In 0 s -> c_str s = s.
Proof. intros H. symmetry. apply before_zero_unique. split; [exact H|now left]. Qed.

(** ** One character *)
Lemma some_inj {A} (x y : A) : Some x = Some y -> x = y.
Proof. congruence. Qed.
Lemma wcrtomb_ok l w : (exists b, wcrtomb l w = Some b) <-> chars_ok l [w].
Proof.
  destruct l; cbn [wcrtomb chars_ok].
  - split.
    + intros [b H]. destruct (_ && _) eqn:E; [|discriminate]. constructor; [unfold ascii; lia|constructor].
    + intros H. inversion H as [|? ? A]; subst. unfold ascii in A.
      replace ((0 <=? w) && (w <? 128)) with true by lia. eauto.
  - split.
    + intros [b H]. constructor; [|constructor]. unfold scalar. destruct (_ || _) eqn:E; [discriminate|]. lia.
    + intros H. inversion H as [|? ? A]; subst. unfold scalar in A.
      replace ((w <? 0) || (0x10FFFF <? w) || ((0xD800 <=? w) && (w <=? 0xDFFF))) with false by lia.
      destruct (w <? 0x80); [eauto|]. destruct (w <? 0x800); [eauto|]. destruct (w <? 0x10000); eauto.
Qed.
Lemma wcrtomb_decode l w b r : wcrtomb l w = Some b -> mbrtowc l (b ++ r) = Some (w, r).
Proof.
  destruct l; cbn [wcrtomb].
  - destruct (_ && _) eqn:E; [|discriminate]. intros H; injection H as <-. cbn [app mbrtowc]. now rewrite E.
  - destruct (_ || _) eqn:E; [discriminate|].
    destruct (Z.ltb_spec w 0x80); [|destruct (Z.ltb_spec w 0x800); [|destruct (Z.ltb_spec w 0x10000)]];
      intros H'; apply some_inj in H'; subst b; cbn [app mbrtowc]; unfold is_cont.
    + replace ((0 <=? w) && (w <? 0x80)) with true by lia. reflexivity.
    + replace ((0 <=? 0xC0 + w / 64) && (0xC0 + w / 64 <? 0x80)) with false by lia.
      replace ((0xC0 <=? 0xC0 + w / 64) && (0xC0 + w / 64 <? 0xE0)) with true by lia.
      replace ((0xC0 + w / 64 - 0xC0) * 64 + (0x80 + w mod 64 - 0x80)) with w by lia.
      cbv beta iota zeta; match goal with |- context [if ?c then _ else _] => replace c with true by lia end. reflexivity.
    + replace ((0 <=? 0xE0 + w / 4096) && (0xE0 + w / 4096 <? 0x80)) with false by lia.
      replace ((0xC0 <=? 0xE0 + w / 4096) && (0xE0 + w / 4096 <? 0xE0)) with false by lia.
      replace ((0xE0 <=? 0xE0 + w / 4096) && (0xE0 + w / 4096 <? 0xF0)) with true by lia.
      replace ((0xE0 + w / 4096 - 0xE0) * 4096 + (0x80 + w / 64 mod 64 - 0x80) * 64 + (0x80 + w mod 64 - 0x80)) with w by lia.
      cbv beta iota zeta; match goal with |- context [if ?c then _ else _] => replace c with true by lia end. reflexivity.
    + replace ((0 <=? 0xF0 + w / 262144) && (0xF0 + w / 262144 <? 0x80)) with false by lia.
      replace ((0xC0 <=? 0xF0 + w / 262144) && (0xF0 + w / 262144 <? 0xE0)) with false by lia.
      replace ((0xE0 <=? 0xF0 + w / 262144) && (0xF0 + w / 262144 <? 0xF0)) with false by lia.
      replace ((0xF0 <=? 0xF0 + w / 262144) && (0xF0 + w / 262144 <? 0xF8)) with true by lia.
      replace ((0xF0 + w / 262144 - 0xF0) * 262144 + (0x80 + w / 4096 mod 64 - 0x80) * 4096 + (0x80 + w / 64 mod 64 - 0x80) * 64 + (0x80 + w mod 64 - 0x80)) with w by lia.
      cbv beta iota zeta; match goal with |- context [if ?c then _ else _] => replace c with true by lia end. reflexivity.
Qed.
Lemma mbrtowc_encode l bs w r : mbrtowc l bs = Some (w, r) -> exists b, wcrtomb l w = Some b /\ bs = b ++ r.
Proof.
  destruct l, bs as [|b bs]; cbn [mbrtowc]; try discriminate.
  - destruct (_ && _) eqn:E; [|discriminate]. intros H; injection H as <- <-. exists [b]. cbn [wcrtomb]. now rewrite E.
  - cbv zeta. destruct ((0 <=? b) && (b <? 0x80)) eqn:E0;
      [|destruct ((0xC0 <=? b) && (b <? 0xE0)) eqn:E1; [|destruct ((0xE0 <=? b) && (b <? 0xF0)) eqn:E2;
        [|destruct ((0xF0 <=? b) && (b <? 0xF8)) eqn:E3; [|discriminate]]]].
    + intros H; injection H as <- <-. exists [b]. cbn [wcrtomb].
      replace ((b <? 0) || (0x10FFFF <? b) || ((0xD800 <=? b) && (b <=? 0xDFFF))) with false by lia.
      replace (b <? 0x80) with true by lia. auto.
    + destruct bs as [|c bs]; [discriminate|].
      set (v := (b - 0xC0) * 64 + (c - 0x80)). assert (V : v = (b - 0xC0) * 64 + (c - 0x80)) by reflexivity. clearbody v.
      unfold is_cont. match goal with |- (if ?c then _ else _) = _ -> _ => destruct c eqn:E end; [|discriminate]. intros H; injection H as <- <-. cbn [wcrtomb].
      replace ((v <? 0) || (0x10FFFF <? v) || ((0xD800 <=? v) && (v <=? 0xDFFF))) with false by lia.
      replace (v <? 0x80) with false by lia. replace (v <? 0x800) with true by lia.
      eexists. split; [reflexivity|]. cbn [app]. f_equal; [lia|f_equal; lia].
    + destruct bs as [|c [|d bs]]; try discriminate.
      set (v := (b - 0xE0) * 4096 + (c - 0x80) * 64 + (d - 0x80)).
      assert (V : v = (b - 0xE0) * 4096 + (c - 0x80) * 64 + (d - 0x80)) by reflexivity. clearbody v.
      unfold is_cont. match goal with |- (if ?c then _ else _) = _ -> _ => destruct c eqn:E end; [|discriminate]. intros H; injection H as <- <-. cbn [wcrtomb].
      replace ((v <? 0) || (0x10FFFF <? v) || ((0xD800 <=? v) && (v <=? 0xDFFF))) with false by lia.
      replace (v <? 0x80) with false by lia. replace (v <? 0x800) with false by lia. replace (v <? 0x10000) with true by lia.
      eexists. split; [reflexivity|]. cbn [app]. f_equal; [lia|f_equal; [lia|f_equal; lia]].
    + destruct bs as [|c [|d [|e bs]]]; try discriminate.
      set (v := (b - 0xF0) * 262144 + (c - 0x80) * 4096 + (d - 0x80) * 64 + (e - 0x80)).
      assert (V : v = (b - 0xF0) * 262144 + (c - 0x80) * 4096 + (d - 0x80) * 64 + (e - 0x80)) by reflexivity. clearbody v.
      unfold is_cont. match goal with |- (if ?c then _ else _) = _ -> _ => destruct c eqn:E end; [|discriminate]. intros H; injection H as <- <-. cbn [wcrtomb].
      replace ((v <? 0) || (0x10FFFF <? v) || ((0xD800 <=? v) && (v <=? 0xDFFF))) with false by lia.
      replace (v <? 0x80) with false by lia. replace (v <? 0x800) with false by lia. replace (v <? 0x10000) with false by lia.
      eexists. split; [reflexivity|]. cbn [app]. f_equal; [lia|f_equal; [lia|f_equal; [lia|f_equal; lia]]].
Qed.

Lemma wcrtomb_wf w b : wcrtomb Utf8 w = Some b -> wf_char b.
Proof.
  cbn [wcrtomb]. destruct (_ || _) eqn:E; [discriminate|].
  destruct (Z.ltb_spec w 0x80); [|destruct (Z.ltb_spec w 0x800); [|destruct (Z.ltb_spec w 0x10000)]];
    intros H'; apply some_inj in H'; subst b.
  - apply wf1; lia.
  - apply wf2; unfold cont; lia.
  - destruct (Z.eq_dec (w / 4096) 0) as [Q0|N0]; [rewrite Q0; apply wf3a; unfold cont; lia|].
    destruct (Z.eq_dec (w / 4096) 13) as [Q1|N1]; [rewrite Q1; apply wf3c; unfold cont; lia|].
    apply wf3b; unfold cont; lia.
  - destruct (Z.eq_dec (w / 262144) 0) as [Q0|N0]; [rewrite Q0; apply wf4a; unfold cont; lia|].
    destruct (Z.eq_dec (w / 262144) 4) as [Q1|N1]; [rewrite Q1; apply wf4c; unfold cont; lia|].
    apply wf4b; unfold cont; lia.
Qed.
Lemma wf_mbrtowc b r : wf_char b -> exists w, mbrtowc Utf8 (b ++ r) = Some (w, r).
Proof.
  intros H; inversion H; subst; unfold cont in *; cbn [app mbrtowc]; cbv zeta; unfold is_cont;
    repeat match goal with
    | |- context [if ?c then _ else _] =>
        first [replace c with true by lia | replace c with false by lia]; cbv iota
    end; eauto.
Qed.

(** ** Strings *)
Lemma wcrtomb_nonempty l w b : wcrtomb l w = Some b -> (1 <= length b)%nat.
Proof.
  destruct l; cbn [wcrtomb]; [destruct (_ && _)|destruct (_ || _); [discriminate|destruct (w <? 0x80); [|destruct (w <? 0x800); [|destruct (w <? 0x10000)]]]];
    try discriminate; intros H; injection H as <-; cbn [length]; lia.
Qed.
Lemma wcrtomb_zero l w b : wcrtomb l w = Some b -> In 0 b -> w = 0.
Proof.
  destruct l; cbn [wcrtomb].
  - destruct (_ && _); [|discriminate]. intros H; apply some_inj in H; subst b. intros [E|[]]. exact E.
  - destruct (_ || _) eqn:E; [discriminate|].
    destruct (Z.ltb_spec w 0x80); [|destruct (Z.ltb_spec w 0x800); [|destruct (Z.ltb_spec w 0x10000)]];
      intros H'; apply some_inj in H'; subst b; cbn [In]; intros; lia.
Qed.
Lemma wcrtomb_0 l b : wcrtomb l 0 = Some b -> b = [0].
Proof. destruct l; cbn; congruence. Qed.
Lemma wcsrtombs_zero l ws bs : wcsrtombs l ws = Some bs -> In 0 bs -> In 0 ws.
Proof.
  revert bs; induction ws as [|w ws IH]; intros bs; cbn [wcsrtombs].
  - intros H; injection H as <-. intros [].
  - destruct (wcrtomb l w) as [b|] eqn:E, (wcsrtombs l ws) as [bs'|]; try discriminate.
    intros H; apply some_inj in H; subst bs. intros H. apply in_app_or in H as [H|H].
    + left. eapply wcrtomb_zero; eauto.
    + right. eauto.
Qed.
Lemma wcsrtombs_zero' l ws bs : wcsrtombs l ws = Some bs -> In 0 ws -> In 0 bs.
Proof.
  revert bs; induction ws as [|w ws IH]; intros bs; cbn [wcsrtombs]; [intros _ []|].
  destruct (wcrtomb l w) as [b|] eqn:E, (wcsrtombs l ws) as [bs'|]; try discriminate.
  intros H; apply some_inj in H; subst bs. intros [->|H]; apply in_or_app.
  - apply wcrtomb_0 in E. subst b. left. now left.
  - right. eauto.
Qed.
Lemma chars_ok_cons l w ws : chars_ok l (w :: ws) <-> chars_ok l [w] /\ chars_ok l ws.
Proof.
  destruct l; cbn [chars_ok]; (split; [intros H; inversion H; auto|intros [H1 H2]; inversion H1; auto]).
Qed.
Lemma wcsrtombs_ok l ws : (exists bs, wcsrtombs l ws = Some bs) <-> chars_ok l ws.
Proof.
  induction ws as [|w ws IH].
  - split; [intros _; destruct l; constructor|intros _; now exists []].
  - rewrite chars_ok_cons, <- IH, <- wcrtomb_ok. cbn [wcsrtombs]. split.
    + intros [bs H]. destruct (wcrtomb l w), (wcsrtombs l ws); try discriminate. eauto.
    + intros [[b ->] [bs ->]]. eauto.
Qed.
Lemma mbs_loop_decode l ws bs f : wcsrtombs l ws = Some bs -> (length bs <= f)%nat -> mbs_loop f l bs = Some ws.
Proof.
  revert bs f; induction ws as [|w ws IH]; intros bs f; cbn [wcsrtombs].
  - intros H; injection H as <-. now destruct f.
  - destruct (wcrtomb l w) as [b|] eqn:E, (wcsrtombs l ws) as [bs'|]; try discriminate.
    intros H; apply some_inj in H; subst bs. rewrite app_length. intros L.
    pose proof (wcrtomb_nonempty _ _ _ E). destruct f as [|f]; [lia|].
    destruct b as [|b0 b]; [cbn in *; lia|]. cbn [mbs_loop app].
    change (b0 :: b ++ bs') with ((b0 :: b) ++ bs'). rewrite (wcrtomb_decode _ _ _ _ E).
    rewrite (IH bs' f); [reflexivity|reflexivity|lia].
Qed.
Lemma mbs_loop_encode l ws bs f : mbs_loop f l bs = Some ws -> wcsrtombs l ws = Some bs.
Proof.
  revert ws bs; induction f as [|f IH]; intros ws bs; destruct bs as [|b bs]; cbn [mbs_loop]; try discriminate.
  1, 2: intros H; injection H as <-; reflexivity.
  destruct (mbrtowc l (b :: bs)) as [[w r]|] eqn:E; [|discriminate].
  destruct (mbs_loop f l r) as [ws'|] eqn:E'; [|discriminate].
  intros H; injection H as <-. cbn [wcsrtombs]. apply mbrtowc_encode in E as (c & -> & ->). now rewrite (IH _ _ E').
Qed.
Lemma mbsrtowcs_iff l ws bs : mbsrtowcs l bs = Some ws <-> wcsrtombs l ws = Some bs.
Proof. split; [apply mbs_loop_encode|]. intros H. now apply mbs_loop_decode. Qed.

Lemma wcsrtombs_c ws bs : wcsrtombs CLocale ws = Some bs -> ws = bs.
Proof.
  revert bs; induction ws as [|w ws IH]; intros bs; cbn [wcsrtombs]; [congruence|].
  cbn [wcrtomb]. destruct (_ && _); [|discriminate]. destruct (wcsrtombs _ ws); [|discriminate].
  intros H; injection H as <-. cbn. f_equal. auto.
Qed.
Lemma wcsrtombs_wf ws bs : wcsrtombs Utf8 ws = Some bs -> well_formed bs.
Proof.
  revert bs; induction ws as [|w ws IH]; intros bs; cbn [wcsrtombs].
  - intros H; injection H as <-. exists []. auto.
  - destruct (wcrtomb Utf8 w) as [b|] eqn:E, (wcsrtombs Utf8 ws) as [bs'|]; try discriminate.
    intros H; apply some_inj in H; subst bs. destruct (IH bs' eq_refl) as (cs & F & ->).
    exists (b :: cs). split; [constructor; [eapply wcrtomb_wf; eauto|exact F]|reflexivity].
Qed.
Lemma wf_wcsrtombs bs : well_formed bs -> exists ws, wcsrtombs Utf8 ws = Some bs.
Proof.
  intros (cs & F & ->). induction F as [|c cs W F [ws E]]; [now exists []|].
  destruct (wf_mbrtowc c [] W) as [w Ew]. apply mbrtowc_encode in Ew as (b & Eb & Ec).
  exists (w :: ws). cbn [wcsrtombs concat]. rewrite Eb, E. do 2 f_equal.
  rewrite !app_nil_r in Ec. auto.
Qed.
Lemma bytes_ok_iff l bs : bytes_ok l bs <-> exists ws, wcsrtombs l ws = Some bs.
Proof.
  destruct l; cbn [bytes_ok].
  - split.
    + intros F. destruct (proj2 (wcsrtombs_ok CLocale bs) F) as [bs' E]. exists bs.
      rewrite E. f_equal. symmetry. now apply wcsrtombs_c.
    + intros [ws E]. assert (F : chars_ok CLocale ws) by (apply wcsrtombs_ok; eauto).
      apply wcsrtombs_c in E. now subst.
  - split; [apply wf_wcsrtombs|intros [ws E]; eapply wcsrtombs_wf; eauto].
Qed.
Lemma before_zero_no s p : before_zero s p -> ~ In 0 p.
Proof. now intros []. Qed.

(** EncodeString converts exactly the characters before the first zero; the result is what the
    locale takes for bytes and DecodeString gives the characters back; if one of them has no
    encoding the function throws a std::logic_error. *)
Theorem encode_string_spec l ws p : before_zero ws p ->
  (chars_ok l p -> exists bs, encode_string l ws = Ok bs /\ bytes_ok l bs /\ ~ In 0 bs /\ decode_string l bs = Ok p)
  /\ (~ chars_ok l p -> encode_string l ws = Throw LogicError).
Proof.
  intros B. pose proof (before_zero_no _ _ B) as N. apply before_zero_unique in B. subst p. unfold encode_string.
  split; intros H.
  - apply wcsrtombs_ok in H as [bs E]. rewrite E. exists bs.
    assert (Z : ~ In 0 bs) by (intros Z; apply N; eapply wcsrtombs_zero; eauto).
    split; [reflexivity|]. split; [apply bytes_ok_iff; eauto|]. split; [exact Z|].
    unfold decode_string. rewrite (c_str_id _ Z). apply mbsrtowcs_iff in E. now rewrite E.
  - destruct (wcsrtombs l (c_str ws)) eqn:E; [|reflexivity]. exfalso. apply H, wcsrtombs_ok. eauto.
Qed.
(** DecodeString accepts exactly the bytes before the first zero that are well formed in the
    locale, and EncodeString gives them back. *)
Theorem decode_string_spec l bs p : before_zero bs p ->
  (bytes_ok l p -> exists ws, decode_string l bs = Ok ws /\ chars_ok l ws /\ ~ In 0 ws /\ encode_string l ws = Ok p)
  /\ (~ bytes_ok l p -> decode_string l bs = Throw LogicError).
Proof.
  intros B. pose proof (before_zero_no _ _ B) as N. apply before_zero_unique in B. subst p. unfold decode_string.
  split; intros H.
  - apply bytes_ok_iff in H as [ws E]. exists ws.
    assert (Z : ~ In 0 ws) by (intros Z; apply N; eapply wcsrtombs_zero'; eauto).
    assert (D := E). apply mbsrtowcs_iff in D. rewrite D.
    split; [reflexivity|]. split; [apply wcsrtombs_ok; eauto|]. split; [exact Z|].
    unfold encode_string. now rewrite (c_str_id _ Z), E.
  - destruct (mbsrtowcs l (c_str bs)) eqn:E; [|reflexivity]. exfalso. apply H, bytes_ok_iff.
    apply mbsrtowcs_iff in E. eauto.
Qed.
(** In a UTF-8 locale the number of wide characters is the number of bytes that do not continue one *)
Lemma wf_leads c : wf_char c -> length (filter (fun b => negb ((0x80 <=? b) && (b <=? 0xBF))) c) = 1%nat.
Proof.
  intros W; inversion W; subst; unfold cont in *; cbn [filter];
    repeat match goal with
    | |- context [negb (?x && ?y)] => first [replace (negb (x && y)) with true by lia | replace (negb (x && y)) with false by lia]; cbv iota
    end; reflexivity.
Qed.
Theorem decode_string_length bs p ws : before_zero bs p -> decode_string Utf8 bs = Ok ws ->
  length ws = length (filter (fun b => negb ((0x80 <=? b) && (b <=? 0xBF))) p).
Proof.
  intros B. apply before_zero_unique in B. subst p. unfold decode_string.
  destruct (mbsrtowcs Utf8 (c_str bs)) as [ws'|] eqn:E; [|discriminate]. intros H; injection H as <-.
  apply mbsrtowcs_iff in E. revert E. generalize (c_str bs). clear bs.
  induction ws' as [|w ws IH]; intros bs; cbn [wcsrtombs]; [intros H; now injection H as <-|].
  destruct (wcrtomb Utf8 w) as [b|] eqn:E, (wcsrtombs Utf8 ws) as [bs'|]; try discriminate.
  intros H; apply some_inj in H; subst bs. rewrite filter_app, app_length, <- (IH bs' eq_refl).
  rewrite wf_leads by (eapply wcrtomb_wf; eauto). reflexivity.
Qed.
(** Different texts stay different: both conversions are injective on what they accept *)
Theorem encode_string_injective l ws1 ws2 bs : ~ In 0 ws1 -> ~ In 0 ws2 ->
  encode_string l ws1 = Ok bs -> encode_string l ws2 = Ok bs -> ws1 = ws2.
Proof.
  intros Z1 Z2. unfold encode_string. rewrite !c_str_id by assumption.
  destruct (wcsrtombs l ws1) eqn:E1; [|discriminate]. destruct (wcsrtombs l ws2) eqn:E2; [|discriminate].
  intros H1 H2. injection H1 as ->. injection H2 as ->. apply mbsrtowcs_iff in E1, E2. congruence.
Qed.

(** A message logged from a std::string stops at its first zero... *)
Theorem log_string_zero_refuted : exists s, log_string_a s <> s /\ (length (log_string_a s) < length s)%nat.
Proof. exists [97; 0; 98]. cbn. split; [discriminate|lia]. Qed.
(** ...and logging a wide message throws in the locale that every program starts in *)
Theorem log_wide_throws : forall w ws, 128 <= w -> log_string_w CLocale (w :: ws) = Throw LogicError.
Proof.
  intros w ws H. unfold log_string_w, from_w_string. apply (encode_string_spec CLocale (w :: ws) (c_str (w :: ws)) (c_str_spec _)).
  cbn [c_str]. destruct (Z.eqb_spec w 0); [lia|]. cbn [chars_ok]. intros F. inversion F as [|? ? A]; subst. unfold ascii in A. lia.
Qed.
Theorem log_wide_refuted : exists ws, Forall scalar ws /\ log_string_w CLocale ws = Throw LogicError.
Proof. exists [1055]. split; [repeat constructor; unfold scalar; lia|]. apply log_wide_throws. lia. Qed.

Example encode_demo : encode_string Utf8 [1055; 8364; 128512; 65] = Ok [208; 159; 226; 130; 172; 240; 159; 152; 128; 65].
Proof. reflexivity. Qed.
Example decode_demo : decode_string Utf8 [208; 159; 0; 255] = Ok [1055] /\ decode_string Utf8 [0xC0; 0x80] = Throw LogicError
  /\ decode_string Utf8 [0xED; 0xA0; 0x80] = Throw LogicError /\ decode_string CLocale [208; 159] = Throw LogicError.
Proof. repeat split. Qed.
Example log_demo : log_string_w CLocale [1055; 1056] = Throw LogicError /\ log_string_w Utf8 [1055] = Ok [208; 159].
Proof. split; reflexivity. Qed.
