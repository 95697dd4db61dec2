(** Properties of the comparers.  [strict_weak] and [keys_ok] are what vector_set
    requires (VSetSpec.v). *)
From Coq Require Import ZifyBool.
From Verif Require Import Common CompareModel VSetModel VSetProg VSetSpec VSetProofs VSetProps.

(** Lexicographic order: the first comparer that tells the two apart decides. *)
Definition incomparable {T} (c : T -> T -> bool) (x y : T) : Prop := c x y = false /\ c y x = false.
Definition lexicographic {T} (cs : list (T -> T -> bool)) (x y : T) : Prop :=
  exists before c after, cs = before ++ c :: after /\ Forall (fun b => incomparable b x y) before /\ c x y = true.

(** A transparent comparer orders elements as their keys are ordered. *)
Definition by_key {T K} (c : tcmp T K) (key : T -> K) (lt : K -> K -> bool) : Prop :=
  (forall x y, tt c x y = lt (key x) (key y)) /\ (forall x k, tk c x k = lt (key x) k) /\ (forall k x, kt c k x = lt k (key x)).
Definition coherent {T K} (c : tcmp T K) : Prop := exists key lt, strict_weak lt /\ by_key c key lt.

Section Order.
Context {T : Type}.
Lemma sw_asym (lt : T -> T -> bool) : strict_weak lt -> forall x y, lt x y = true -> lt y x = false.
Proof. intros S x y H. destruct (lt y x) eqn:E; auto. rewrite <- (sw_irrefl lt S x). symmetry. eapply sw_trans; eauto. Qed.

(** C37: composition is lexicographic *)
Theorem composite_lexicographic (cs : list (T -> T -> bool)) : Forall strict_weak cs -> forall x y, composite cs x y = true <-> lexicographic cs x y.
Proof.
  induction 1 as [|c cs Hc Hcs IH]; intros x y; cbn [composite].
  - split; [discriminate|]. intros (b & c & a & E & _). destruct b; discriminate.
  - destruct (c x y) eqn:C1.
    + split; auto. intros _. exists [], c, cs. auto.
    + destruct (c y x) eqn:C2.
      * split; [discriminate|]. intros (b & d & a & E & F & D). destruct b as [|b0 b]; injection E as -> E; [congruence|]. inversion F as [|? ? [I1 I2]]; subst. congruence.
      * rewrite IH. split.
        -- intros (b & d & a & -> & F & D). exists (c :: b), d, a. repeat split; auto. constructor; auto. now split.
        -- intros (b & d & a & E & F & D). destruct b as [|b0 b]; injection E as -> E; [congruence|]. exists b, d, a. inversion F; subst. auto.
Qed.
(** C37: and a strict weak order *)
Theorem composite_strict_weak (cs : list (T -> T -> bool)) : Forall strict_weak cs -> strict_weak (composite cs).
Proof.
  induction 1 as [|c cs Hc Hcs IH]; [split; cbn; auto; discriminate|].
  assert (A : forall x y z, c x y = true -> c y z = false -> c z y = false -> c x z = true).
  { intros x y z H1 H2 H3. destruct (c x z) eqn:E; auto. rewrite <- H1. symmetry. eapply (sw_incomp c Hc); eauto. }
  assert (B : forall x y z, c x y = false -> c y x = false -> c y z = true -> c x z = true).
  { intros x y z H1 H2 H3. destruct (c x z) eqn:E; auto. rewrite <- H3. symmetry. eapply (sw_incomp c Hc); eauto. }
  split; cbn [composite].
  - intros x. rewrite (sw_irrefl c Hc). apply (sw_irrefl _ IH).
  - intros x y z H1 H2. destruct (c x y) eqn:Cxy.
    + destruct (c y z) eqn:Cyz; [now rewrite (sw_trans c Hc x y z)|]. destruct (c z y) eqn:Czy; [discriminate|]. now rewrite (A x y z).
    + destruct (c y x) eqn:Cyx; [discriminate|]. destruct (c y z) eqn:Cyz; [now rewrite (B x y z)|]. destruct (c z y) eqn:Czy; [discriminate|].
      rewrite (sw_incomp c Hc x y z), (sw_incomp c Hc z y x) by auto. eapply sw_trans; eauto.
  - intros x y z H1 H2. destruct (c x y) eqn:Cxy; [discriminate|]. destruct (c y z) eqn:Cyz; [discriminate|]. rewrite (sw_incomp c Hc x y z) by auto.
    destruct (c z x) eqn:Czx; [reflexivity|]. destruct (c y x) eqn:Cyx.
    + (* y < x and not z < x, not x < z: y < z, contradiction *) exfalso. rewrite (A y x z) in Cyz; auto; [discriminate|]. eapply (sw_incomp c Hc); eauto.
    + destruct (c z y) eqn:Czy; [exfalso; rewrite (A z y x) in Czx; auto; discriminate|]. eapply sw_incomp; eauto.
Qed.
Theorem reverse_strict_weak (c : T -> T -> bool) : strict_weak c -> strict_weak (reverse c).
Proof. intros S. unfold reverse. split; intros; [apply (sw_irrefl c S)|eapply (sw_trans c S); eauto|eapply (sw_incomp c S); eauto]. Qed.
End Order.

Section Keys.
Context {T K : Type}.
Lemma by_key_strict_weak (c : tcmp T K) key lt : strict_weak lt -> by_key c key lt -> strict_weak (tt c).
Proof. intros S (H1 & _). split; intros; rewrite ?H1 in *; [apply (sw_irrefl lt S)|eapply (sw_trans lt S); eauto|eapply (sw_incomp lt S); eauto]. Qed.
(** What a lookup by key needs follows. *)
Theorem coherent_strict_weak (c : tcmp T K) : coherent c -> strict_weak (tt c).
Proof. intros (key & lt & S & H). eapply by_key_strict_weak; eauto. Qed.
Theorem coherent_keys_ok (c : tcmp T K) : coherent c -> keys_ok (tt c) (kt c) (tk c).
Proof.
  intros (key & lt & S & H1 & H2 & H3). split; unfold eqvK; intros; rewrite ?H1, ?H2, ?H3 in *.
  - now apply sw_asym.
  - eapply (sw_trans lt S); eauto.
  - eapply (sw_trans lt S); eauto.
  - destruct (lt k (key x)) eqn:E1, (lt (key x) k) eqn:E2; try discriminate. 
    assert (lt k (key y) = true) as ->; [|reflexivity]. destruct (lt k (key y)) eqn:E3; auto. rewrite <- H. symmetry. eapply (sw_incomp lt S); eauto.
Qed.
(** A key finds exactly the elements with an equivalent key. *)
Theorem coherent_lookup (c : tcmp T K) key lt x k : strict_weak lt -> by_key c key lt -> eqvK (kt c) (tk c) k x = true <-> incomparable lt (key x) k.
Proof. intros S (_ & H2 & H3). unfold eqvK, incomparable. rewrite H2, H3. destruct (lt k (key x)), (lt (key x) k); cbn; intuition discriminate. Qed.

(** C37: KeyCompare *)
Theorem key_compare_by_key {P} (deref : P -> T) (get_key : T -> K) comp : by_key (key_compare deref get_key comp) (fun p => get_key (deref p)) comp.
Proof. repeat split. Qed.
Theorem key_compare_coherent {P} (deref : P -> T) (get_key : T -> K) comp : strict_weak comp -> coherent (key_compare deref get_key comp).
Proof. intros S. eexists _, comp. split; auto. apply key_compare_by_key. Qed.
(** C37: TransparentReverseCompare *)
Theorem transparent_reverse_coherent (c : tcmp T K) : coherent c -> coherent (transparent_reverse c).
Proof.
  intros (key & lt & S & H1 & H2 & H3). exists key, (reverse lt). split; [now apply reverse_strict_weak|]. unfold reverse. repeat split; intros; cbn; auto.
Qed.

(** C37: TransparentCompositeCompare.  The keys are compared lexicographically. *)
Fixpoint lex_lists (lts : list (K -> K -> bool)) (a b : list K) : bool :=
  match lts, a, b with
  | lt :: lts, x :: a, y :: b => if lt x y then true else if lt y x then false else lex_lists lts a b
  | _, _, _ => false
  end.
End Keys.

(** Keys of a composite: one for each comparer *)
Section Composite.
Context {T K : Type}.
Definition key_list (n : nat) := { l : list K | length l = n }.
(** The transparent composite over keys of the right length, which is all that the type
    tuple allows. *)
Definition composite_on_keys (cs : list (tcmp T K)) : tcmp T (key_list (length cs)) :=
  {| tt := tt (transparent_composite cs); tk := fun x k => tk (transparent_composite cs) x (proj1_sig k); kt := fun k x => kt (transparent_composite cs) (proj1_sig k) x |}.

Lemma lex_composite (lts : list (K -> K -> bool)) a b : length a = length lts -> length b = length lts ->
  lex_lists lts a b = composite (map (fun i (x y : list K) => match nth_error lts i, nth_error x i, nth_error y i with Some lt, Some p, Some q => lt p q | _, _, _ => false end) (seq 0 (length lts))) a b.
Proof.
  revert a b. induction lts as [|lt lts IH]; intros [|x a] [|y b] La Lb; try discriminate; [reflexivity|].
  cbn [lex_lists length seq map composite nth_error]. destruct (lt x y); [reflexivity|]. destruct (lt y x); [reflexivity|].
  rewrite IH by (cbn in *; lia). rewrite <- seq_shift, map_map. clear. generalize (seq 0 (length lts)) as l. induction l as [|i l IHl]; [reflexivity|].
  cbn [map composite nth_error]. now rewrite IHl.
Qed.
Theorem transparent_composite_coherent (cs : list (tcmp T K)) : Forall coherent cs -> coherent (composite_on_keys cs).
Proof.
  intros H.
  assert (X : exists keys lts, length keys = length cs /\ length lts = length cs /\ Forall strict_weak lts /\
             forall i c, nth_error cs i = Some c -> exists key lt, nth_error keys i = Some key /\ nth_error lts i = Some lt /\ by_key c key lt).
  { induction H as [|c cs (key & lt & S & B) _ (keys & lts & L1 & L2 & F & Q)]; [exists [], []; repeat split; auto; intros [|i] c; discriminate|].
    exists (key :: keys), (lt :: lts). cbn [length]. repeat split; auto; try lia. intros [|i] d Hd; cbn in Hd; [injection Hd as <-; cbn; eauto|]. cbn. auto. }
  destruct X as (keys & lts & L1 & L2 & F & Q).
  assert (KL : forall x, length (map (fun k : T -> K => k x) keys) = length cs) by (intros; now rewrite map_length).
  exists (fun x => exist _ (map (fun k => k x) keys) (KL x)), (fun a b => lex_lists lts (proj1_sig a) (proj1_sig b)). split.
  - set (comps := map (fun i (x y : list K) => match nth_error lts i, nth_error x i, nth_error y i with Some lt, Some p, Some q => lt p q | _, _, _ => false end) (seq 0 (length lts))).
    assert (SC : forall a b : key_list (length cs), lex_lists lts (proj1_sig a) (proj1_sig b) = composite (map (fun c (a b : key_list (length cs)) => c (proj1_sig a) (proj1_sig b)) comps) a b).
    { intros [a La] [b Lb]. cbn [proj1_sig]. rewrite lex_composite by congruence. fold comps. generalize comps as l. induction l as [|c l IHl]; [reflexivity|]. cbn [composite map proj1_sig]. now rewrite IHl. }
    assert (SW : strict_weak (composite (map (fun c (a b : key_list (length cs)) => c (proj1_sig a) (proj1_sig b)) comps))).
    { apply composite_strict_weak. apply Forall_forall. intros c Hc. apply in_map_iff in Hc as (d & <- & Hd). apply in_map_iff in Hd as (i & <- & Hi). apply in_seq in Hi.
      destruct (nth_error lts i) as [lt|] eqn:El; [|apply nth_error_None in El; lia]. pose proof (proj1 (Forall_forall _ _) F lt (nth_error_In _ _ El)) as S.
      assert (G : forall k : key_list (length cs), exists p, nth_error (proj1_sig k) i = Some p).
      { intros [k Lk]. cbn. destruct (nth_error k i) eqn:Ek; eauto. apply nth_error_None in Ek. lia. }
      split; intros; cbn beta in *.
      - destruct (G x) as [p Hp]. rewrite Hp. apply (sw_irrefl lt S).
      - destruct (G x) as [p Hp], (G y) as [q Hq], (G z) as [r Hr]. rewrite Hp, Hq, Hr in *. eapply (sw_trans lt S); eauto.
      - destruct (G x) as [p Hp], (G y) as [q Hq], (G z) as [r Hr]. rewrite Hp, Hq, Hr in *. eapply (sw_incomp lt S); eauto. }
    split; intros; rewrite ?SC in *; [apply (sw_irrefl _ SW)|eapply (sw_trans _ SW); eauto|eapply (sw_incomp _ SW); eauto].
  - clear F. repeat split; intros; cbn [tt tk kt composite_on_keys transparent_composite proj1_sig]; clear KL.
    + revert keys lts L1 L2 Q. clear H. induction cs as [|c cs IH]; intros [|key keys] [|lt lts] L1 L2 Q; try discriminate; [reflexivity|]. cbn [map composite lex_lists].
      destruct (Q 0%nat c eq_refl) as (key' & lt' & K1 & K2 & B1 & _). cbn in K1, K2. injection K1 as <-. injection K2 as <-. rewrite !B1.
      rewrite (IH keys lts); auto. intros i d Hd. apply (Q (S i) d Hd).
    + destruct k as [k Lk]. cbn [proj1_sig]. revert k Lk keys lts L1 L2 Q. clear H. induction cs as [|c cs IH]; intros [|p k] Lk [|key keys] [|lt lts] L1 L2 Q; try discriminate; [reflexivity|]. cbn [map composite_tk lex_lists].
      destruct (Q 0%nat c eq_refl) as (key' & lt' & K1 & K2 & _ & B2 & B3). cbn in K1, K2. injection K1 as <-. injection K2 as <-. rewrite B2, B3.
      rewrite (IH k ltac:(cbn in Lk; lia) keys lts); auto. intros i d Hd. apply (Q (S i) d Hd).
    + destruct k as [k Lk]. cbn [proj1_sig]. revert k Lk keys lts L1 L2 Q. clear H. induction cs as [|c cs IH]; intros [|p k] Lk [|key keys] [|lt lts] L1 L2 Q; try discriminate; [reflexivity|]. cbn [map composite_kt lex_lists].
      destruct (Q 0%nat c eq_refl) as (key' & lt' & K1 & K2 & _ & B2 & B3). cbn in K1, K2. injection K1 as <-. injection K2 as <-. rewrite B2, B3.
      rewrite (IH k ltac:(cbn in Lk; lia) keys lts); auto. intros i d Hd. apply (Q (S i) d Hd).
Qed.
(** With C01: a vector_set with any of these comparers behaves as a sorted list. *)
Theorem coherent_vset (c : tcmp T K) : coherent c -> forall (os : list (vop T K)) se vs, srun (tt c) (kt c) (tk c) sinit os = Some (se, vs, true) ->
  exists e, vrun (tt c) (kt c) (tk c) vinit os = Ok (e, vs).
Proof. intros H. apply vset_refines_sorted_list; [now apply coherent_strict_weak|now apply coherent_keys_ok]. Qed.
End Composite.
Print Assumptions composite_strict_weak.
Print Assumptions composite_lexicographic.
Print Assumptions transparent_composite_coherent.
Print Assumptions transparent_reverse_coherent.
Print Assumptions coherent_vset.

(** ** Strings without regard to case (C50) *)
Section Strings.
Local Open Scope Z_scope.
Context (lower : Z -> Z).
(** Characters that std::tolower accepts *)
Definition plain (s : list Z) : Prop := Forall (fun c => 0 <= c < 256) s.
(** Specification: the order of the standard library on the lowered strings *)
Inductive before : list Z -> list Z -> Prop :=
| before_end c s : before [] (c :: s)
| before_char a b s t : a < b -> before (a :: s) (b :: t)
| before_rest a s t : before s t -> before (a :: s) (a :: t).

Lemma tolower_plain c : 0 <= c < 256 -> tolower lower c = Ok (lower c).
Proof. intros H. unfold tolower. now replace ((-1 <=? c) && (c <? 256)) with true by lia. Qed.
(** C50 *)
Theorem insensitive_less_spec s t : plain s -> plain t -> exists b, insensitive_less lower s t = Ok b /\ (b = true <-> before (map lower s) (map lower t)).
Proof.
  intros Hs. revert t. induction Hs as [|x s Hx Hs IH]; intros t Ht.
  - destruct t as [|y t]; cbn [insensitive_less map]; eexists; (split; [reflexivity|]).
    + split; [discriminate|]. intros B; inversion B.
    + split; auto. intros _. constructor.
  - destruct Ht as [|y t Hy Ht]; cbn [insensitive_less map].
    + exists false. split; auto. split; [discriminate|]. intros B; inversion B.
    + rewrite (tolower_plain x Hx), (tolower_plain y Hy). cbn [rbind]. destruct (lower x - lower y =? 0) eqn:E.
      * destruct (IH t Ht) as (b & E1 & E2). exists b. split; auto. rewrite E2. assert (lower x = lower y) as -> by lia. split; [now constructor|].
        intros B; inversion B; subst; auto. lia.
      * eexists; split; [reflexivity|]. split; [intros L; constructor; lia|]. intros B; inversion B; subst; lia.
Qed.
Theorem insensitive_equal_spec s t : plain s -> plain t -> exists b, insensitive_equal lower s t = Ok b /\ (b = true <-> map lower s = map lower t).
Proof.
  intros Hs Ht. unfold insensitive_equal. destruct (Nat.eqb_spec (length s) (length t)) as [L|L].
  - revert t Ht L. induction Hs as [|x s Hx Hs IH]; intros t Ht L; destruct Ht as [|y t Hy Ht]; try discriminate; cbn [equal_chars map].
    + exists true. split; auto. split; auto.
    + rewrite (tolower_plain x Hx), (tolower_plain y Hy). cbn [rbind]. destruct (Z.eqb_spec (lower x) (lower y)) as [E|E].
      * destruct (IH t Ht ltac:(cbn in L; lia)) as (b & E1 & E2). exists b. split; auto. rewrite E2, E. split; [congruence|]. intros [=]; auto.
      * exists false. split; auto. split; [discriminate|]. intros [=]; contradiction.
  - exists false. split; auto. split; [discriminate|]. intros E. apply (f_equal (@length Z)) in E. rewrite !map_length in E. contradiction.
Qed.
Lemma before_irrefl s : ~ before s s.
Proof. induction s; intros B; inversion B; subst; auto. lia. Qed.
Lemma before_trans s t u : before s t -> before t u -> before s u.
Proof. intros B. revert u. induction B; intros u C; inversion C; subst; first [apply before_end | apply before_char; lia | apply before_rest; auto]. Qed.
Lemma before_total s t : before s t \/ s = t \/ before t s.
Proof.
  revert t. induction s as [|a s IH]; intros [|b t]; auto; [left; constructor|right; right; constructor|].
  destruct (Z.lt_trichotomy a b) as [H|[-> |H]]; [left; now constructor| |right; right; now constructor].
  destruct (IH t) as [H|[-> |H]]; [left; now constructor|auto|right; right; now constructor].
Qed.
(** Both comparers agree: exactly one of less, equal, greater holds. *)
Theorem insensitive_trichotomy s t : plain s -> plain t ->
  exists a b c, insensitive_less lower s t = Ok a /\ insensitive_equal lower s t = Ok b /\ insensitive_less lower t s = Ok c /\
  In (a, b, c) [(true, false, false); (false, true, false); (false, false, true)].
Proof.
  intros Hs Ht. destruct (insensitive_less_spec s t Hs Ht) as (a & E1 & A). destruct (insensitive_equal_spec s t Hs Ht) as (b & E2 & B). destruct (insensitive_less_spec t s Ht Hs) as (c & E3 & C).
  exists a, b, c. repeat (split; [assumption|]).
  destruct (before_total (map lower s) (map lower t)) as [H|[H|H]].
  - assert (a = true) as -> by now apply A. assert (b = false) as ->. { destruct b; auto. rewrite (proj1 B eq_refl) in H. now apply before_irrefl in H. }
    assert (c = false) as ->. { destruct c; auto. exfalso. apply (before_irrefl (map lower s)). eapply before_trans; [exact H|]. now apply C. } cbn; auto.
  - assert (b = true) as -> by now apply B. rewrite H in A, C.
    assert (a = false) as ->. { destruct a; auto. exfalso. eapply before_irrefl. now apply A. } assert (c = false) as ->. { destruct c; auto. exfalso. eapply before_irrefl. now apply C. } cbn; auto.
  - assert (c = true) as -> by now apply C. assert (b = false) as ->. { destruct b; auto. rewrite (proj1 B eq_refl) in H. now apply before_irrefl in H. }
    assert (a = false) as ->. { destruct a; auto. exfalso. apply (before_irrefl (map lower t)). eapply before_trans; [exact H|]. now apply A. } cbn; auto 6.
Qed.
(** C50: less is a strict weak order on such strings. *)
Definition less_on (s t : {s | plain s}) : bool := match insensitive_less lower (proj1_sig s) (proj1_sig t) with Ok b => b | _ => false end.
Theorem insensitive_strict_weak : strict_weak less_on.
Proof.
  assert (E : forall s t, less_on s t = true <-> before (map lower (proj1_sig s)) (map lower (proj1_sig t))).
  { intros [s Hs] [t Ht]. unfold less_on. cbn [proj1_sig]. destruct (insensitive_less_spec s t Hs Ht) as (b & -> & B). exact B. }
  assert (N : forall s t, less_on s t = false <-> ~ before (map lower (proj1_sig s)) (map lower (proj1_sig t))).
  { intros s t. rewrite <- E. destruct (less_on s t); intuition congruence. }
  split.
  - intros x. apply N, before_irrefl.
  - intros x y z. rewrite !E. apply before_trans.
  - intros x y z. rewrite !N. intros H1 H2 H3. destruct (before_total (map lower (proj1_sig x)) (map lower (proj1_sig y))) as [H|[H|H]]; [auto|rewrite H in H3; auto|].
    apply H2. eapply before_trans; eauto.
Qed.
End Strings.
Print Assumptions insensitive_trichotomy.
Print Assumptions insensitive_strict_weak.
(** A char below zero, as any byte of a UTF-8 encoded non-Latin letter where char is
    signed, or a wide character above 255, must not be passed to std::tolower. *)
Theorem insensitive_negative_refuted : exists s t, forall lower, insensitive_less lower s t = UB /\ insensitive_equal lower s t = UB.
Proof. exists [(-48)%Z], [(-47)%Z]. intros. split; reflexivity. Qed.

(** ** Concrete cases *)
Section Demo.
Local Open Scope Z_scope.
Definition ascii_lower (c : Z) : Z := if (65 <=? c) && (c <=? 90) then c + 32 else c.
(** "Ab" and "aB" are equal, "Ab" is before "ABC", "b" is not before "AC" *)
Example insensitive_demo : insensitive_equal ascii_lower [65; 98] [97; 66] = Ok true /\ insensitive_less ascii_lower [65; 98] [65; 66; 67] = Ok true /\ insensitive_less ascii_lower [98] [65; 67] = Ok false.
Proof. now vm_compute. Qed.
(** Descending by the first member, then ascending by the second *)
Definition by_first : tcmp (Z * Z) Z := transparent_reverse (key_compare (fun x => x) fst Z.ltb).
Definition by_second : tcmp (Z * Z) Z := key_compare (fun x => x) snd Z.ltb.
Definition by_both := composite_on_keys [by_first; by_second].
Lemma z_strict_weak : strict_weak Z.ltb.
Proof. split; intros; lia. Qed.
Example by_both_coherent : coherent by_both.
Proof. apply transparent_composite_coherent. repeat constructor; [apply transparent_reverse_coherent|]; apply key_compare_coherent, z_strict_weak. Qed.
Example by_both_demo : tt by_both (5, 1) (3, 0) = true /\ tt by_both (3, 1) (3, 0) = false /\ tt by_both (3, 0) (3, 1) = true /\
  tk (transparent_composite [by_first; by_second]) (3, 0) [3; 1] = true /\ kt (transparent_composite [by_first; by_second]) [4; 9] (3, 0) = true /\
  composite [fun x y => fst x <? fst y; fun x y => snd x <? snd y] (3, 0) (3, 1) = true.
Proof. now vm_compute. Qed.
End Demo.
