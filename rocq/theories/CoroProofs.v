(** Proofs about the coroutine tasks. *)
From Coq Require Import Permutation ZifyBool ZifyNat.
From Verif Require Import Common CoroModel CoroSpec.

Definition cnt := count_occ Nat.eq_dec.
Definition running (f : frame) : nat := match code f with Run _ => 1 | _ => 0 end.
Definition fcost (E : nat -> outcome) (gl : list outcome) (f : frame) : nat :=
  match code f with Run b => cost gl b | Wait c k => cost gl (k (E c)) | Done => 0 end.
Fixpoint total (g : nat -> nat) (n : nat) : nat := match n with 0 => 0 | S n' => total g n' + g n' end.

Lemma total_ext g g' n : (forall x, x < n -> g x = g' x) -> total g n = total g' n.
Proof. induction n as [|n IH]; intros H; simpl; auto. rewrite IH by auto. now rewrite (H n) by lia. Qed.

Lemma total_change g g' n h :
  h < n -> (forall x, x <> h -> g x = g' x) -> total g n + g' h = total g' n + g h.
Proof.
  induction n as [|n IH]; intros Hh Hx; [lia|]. simpl. destruct (Nat.eq_dec h n) as [e|e].
  - subst. rewrite (total_ext g g' n) by (intros; apply Hx; lia). lia.
  - rewrite (Hx n) by lia. specialize (IH ltac:(lia) Hx). lia.
Qed.

Record inv (u : bool) (b0 : body) (E : nat -> outcome) (G : nat -> list outcome) (P : nat -> list bool) (n : nat) (m : machine) : Prop := {
  i_zero : 0 < next m /\ E 0 = eval [] b0 /\ owned (frames m 0) = true;
  i_run : forall h b, h < next m -> code (frames m h) = Run b -> eval (G h) b = E h /\ structured u (P h) b;
  i_wait : forall h c k, h < next m -> code (frames m h) = Wait c k ->
    eval (G h) (k (E c)) = E h /\ (forall o, structured u (P h) (k o)) /\
    awaiting (frames m c) = Some h /\ is_done (frames m c) = false /\ (exists i, nth_error (locals (frames m h)) i = Some (Some c));
  i_done : forall h, h < next m -> code (frames m h) = Done -> result (frames m h) = Some (E h) /\ locals (frames m h) = [];
  i_len : forall h, h < next m -> is_done (frames m h) = false ->
    length (G h) = length (locals (frames m h)) /\ length (P h) = length (locals (frames m h));
  i_loc : forall h i c, h < next m -> nth_error (locals (frames m h)) i = Some (Some c) ->
    h < c < next m /\ alive (frames m c) = true /\ owned (frames m c) = true /\ nth_error (G h) i = Some (E c);
  i_true : forall h i, h < next m -> is_done (frames m h) = false -> nth_error (P h) i = Some true ->
    exists c, nth_error (locals (frames m h)) i = Some (Some c) /\ awaiting (frames m c) = None;
  i_false : forall h i c, h < next m -> nth_error (P h) i = Some false -> nth_error (locals (frames m h)) i = Some (Some c) ->
    is_done (frames m c) = true \/ exists k, code (frames m h) = Wait c k;
  i_await : forall c p, c < next m -> awaiting (frames m c) = Some p -> is_done (frames m c) = false ->
    p < next m /\ exists k, code (frames m p) = Wait c k;
  i_uniq : forall h i h' i' c, h < next m -> h' < next m ->
    nth_error (locals (frames m h)) i = Some (Some c) -> nth_error (locals (frames m h')) i' = Some (Some c) -> h = h' /\ i = i';
  i_alive : forall h, h < next m -> is_done (frames m h) = false -> alive (frames m h) = true;
  i_dead : forall c, c < next m -> (alive (frames m c) = false <-> In c (destroyed m));
  i_destroyed : NoDup (destroyed m) /\ forall c, In c (destroyed m) -> 0 < c < next m;
  i_orphan : forall c, 0 < c < next m ->
    (exists h i, h < next m /\ nth_error (locals (frames m h)) i = Some (Some c)) \/ In c (destroyed m) \/ owned (frames m c) = false;
  i_owned : u = false -> forall c, c < next m -> owned (frames m c) = true;
  i_count : forall h, h < next m -> cnt (stack m) h + cnt (timers m) h = running (frames m h);
  i_in : forall h, In h (stack m) \/ In h (timers m) -> h < next m;
  i_cost : n + total (fun h => fcost E (G h) (frames m h)) (next m) + length (timers m) = cost [] b0
}.

Arguments i_zero {u b0 E G P n m} _.
Arguments i_run {u b0 E G P n m} _.
Arguments i_wait {u b0 E G P n m} _.
Arguments i_done {u b0 E G P n m} _.
Arguments i_len {u b0 E G P n m} _.
Arguments i_loc {u b0 E G P n m} _.
Arguments i_true {u b0 E G P n m} _.
Arguments i_false {u b0 E G P n m} _.
Arguments i_await {u b0 E G P n m} _.
Arguments i_uniq {u b0 E G P n m} _.
Arguments i_alive {u b0 E G P n m} _.
Arguments i_dead {u b0 E G P n m} _.
Arguments i_destroyed {u b0 E G P n m} _.
Arguments i_orphan {u b0 E G P n m} _.
Arguments i_owned {u b0 E G P n m} _.
Arguments i_count {u b0 E G P n m} _.
Arguments i_in {u b0 E G P n m} _.
Arguments i_cost {u b0 E G P n m} _.

Lemma inv_init u b : structured u [] b ->
  inv u b (fun _ => eval [] b) (fun _ => []) (fun _ => []) 0 (minit b).
Proof.
  intros Hs. split; cbn [minit frames next stack timers destroyed].
  - repeat split; lia.
  - intros h b' Hh Hc. assert (h = 0) by lia; subst. cbn in Hc. injection Hc as Hc. now subst.
  - intros h c k Hh Hc. assert (h = 0) by lia; subst. discriminate.
  - intros h Hh Hc. assert (h = 0) by lia; subst. discriminate.
  - intros h Hh Hc. assert (h = 0) by lia; subst. now cbn.
  - intros h i c Hh Hc. assert (h = 0) by lia; subst. cbn in Hc. now destruct i.
  - intros h i _ _ Hc. now destruct i.
  - intros h i c _ Hc. now destruct i.
  - intros c p Hh Hc. assert (c = 0) by lia; subst. discriminate.
  - intros h i h' i' c Hh _ Hc. assert (h = 0) by lia; subst. cbn in Hc. now destruct i.
  - intros h Hh _. assert (h = 0) by lia; subst. reflexivity.
  - intros c Hc. assert (c = 0) by lia; subst. cbn. split; [discriminate|tauto].
  - split; [constructor|intros c []].
  - lia.
  - intros _ c Hc. assert (c = 0) by lia; subst. reflexivity.
  - intros h Hh. assert (h = 0) by lia; subst. reflexivity.
  - intros h [[<-|[]]|[]]. lia.
  - cbn. lia.
Qed.

(** Equations that relate two states, field by field. *)
Record same_but_code (m m' : machine) : Prop := {
  s_next : next m' = next m;
  s_destr : destroyed m' = destroyed m;
  s_locals : forall x, locals (frames m' x) = locals (frames m x);
  s_await : forall x, awaiting (frames m' x) = awaiting (frames m x);
  s_result : forall x, result (frames m' x) = result (frames m x);
  s_owned : forall x, owned (frames m' x) = owned (frames m x);
  s_alive : forall x, alive (frames m' x) = alive (frames m x)
}.

Ltac same_simpl H :=
  rewrite ?(s_next _ _ H), ?(s_destr _ _ H), ?(s_locals _ _ H), ?(s_await _ _ H), ?(s_result _ _ H), ?(s_owned _ _ H), ?(s_alive _ _ H) in *.

Lemma inv_code u b0 E G P P' n n' m m' h b b' :
  inv u b0 E G P n m -> same_but_code m m' ->
  h < next m -> code (frames m h) = Run b -> code (frames m' h) = Run b' ->
  (forall x, x <> h -> code (frames m' x) = code (frames m x)) ->
  (forall x, x <> h -> P' x = P x) ->
  eval (G h) b' = eval (G h) b -> structured u (P' h) b' ->
  length (P' h) = length (P h) ->
  (forall i, nth_error (P' h) i = Some true -> nth_error (P h) i = Some true) ->
  (forall i c, nth_error (P' h) i = Some false -> nth_error (locals (frames m h)) i = Some (Some c) ->
     nth_error (P h) i = Some false \/ is_done (frames m c) = true) ->
  (forall x, cnt (stack m') x + cnt (timers m') x = cnt (stack m) x + cnt (timers m) x) ->
  n' + cost (G h) b' + length (timers m') = n + cost (G h) b + length (timers m) ->
  inv u b0 E G P' n' m'.
Proof.
  intros I Sm Hh Hb Hb' Hoth HP Hev Hst Hlen Htrue Hfalse Hcnt Hcost.
  assert (Hd : forall x, is_done (frames m' x) = is_done (frames m x)).
  { intros x. unfold is_done. destruct (Nat.eq_dec x h) as [e|e]; [subst; now rewrite Hb, Hb'|now rewrite Hoth]. }
  assert (Hr : forall x, running (frames m' x) = running (frames m x)).
  { intros x. unfold running. destruct (Nat.eq_dec x h) as [e|e]; [subst; now rewrite Hb, Hb'|now rewrite Hoth]. }
  split.
  - same_simpl Sm. apply I.
  - same_simpl Sm. intros x y Hx Hc. destruct (Nat.eq_dec x h) as [e|e].
    + subst. rewrite Hb' in Hc. injection Hc as Hc. subst. split; auto. rewrite Hev. now apply (i_run I).
    + rewrite Hoth in Hc by auto. rewrite HP by auto. now apply (i_run I).
  - intros x c k Hx Hc. rewrite Hd. same_simpl Sm. destruct (Nat.eq_dec x h) as [e|e]; [subst; congruence|].
    rewrite Hoth in Hc by auto. rewrite HP by auto. now apply (i_wait I).
  - intros x Hx Hc. same_simpl Sm. destruct (Nat.eq_dec x h) as [e|e]; [subst; congruence|].
    rewrite Hoth in Hc by auto. now apply (i_done I).
  - intros x Hx Hc. rewrite Hd in Hc. same_simpl Sm. destruct (i_len I x Hx Hc) as [L1 L2]. split; auto.
    destruct (Nat.eq_dec x h) as [e|e]; [subst; congruence|]. now rewrite HP.
  - intros x i c Hx Hc. same_simpl Sm. now apply (i_loc I).
  - intros x i Hx Hc Hp. rewrite Hd in Hc. same_simpl Sm.
    destruct (i_true I x i Hx Hc) as (c & A1 & A2).
    + destruct (Nat.eq_dec x h) as [e|e]; [subst; auto|]. now rewrite HP in Hp.
    + exists c. now rewrite (s_await _ _ Sm).
  - intros x i c Hx Hp Hl. rewrite Hd. same_simpl Sm. destruct (Nat.eq_dec x h) as [e|e].
    + subst. destruct (Hfalse _ _ Hp Hl) as [Hf|Hf]; auto.
      destruct (i_false I h i c Hx Hf Hl) as [A|[k A]]; auto. congruence.
    + rewrite HP in Hp by auto. rewrite Hoth by auto. now apply (i_false I) with (i := i).
  - intros c p Hc Ha Hdn. rewrite Hd in Hdn. same_simpl Sm. destruct (i_await I c p Hc Ha Hdn) as [A [k B]].
    split; auto. exists k. destruct (Nat.eq_dec p h) as [e|e]; [subst; congruence|]. now rewrite Hoth.
  - intros x i x' i' c. same_simpl Sm. apply (i_uniq I).
  - intros x Hx Hc. rewrite Hd in Hc. same_simpl Sm. now apply (i_alive I).
  - intros c. same_simpl Sm. apply (i_dead I).
  - same_simpl Sm. apply (i_destroyed I).
  - intros c Hc. same_simpl Sm. destruct (i_orphan I c Hc) as [(x & i & A & B)|A]; auto.
    left. exists x, i. now rewrite (s_locals _ _ Sm).
  - intros Hu c. same_simpl Sm. now apply (i_owned I).
  - intros x Hx. rewrite Hr, Hcnt. same_simpl Sm. now apply (i_count I).
  - intros x Hx. same_simpl Sm. apply (i_in I).
    assert (Hpos : cnt (stack m') x > 0 \/ cnt (timers m') x > 0)
      by (destruct Hx as [Hx|Hx]; apply (count_occ_In Nat.eq_dec) in Hx; unfold cnt; auto).
    specialize (Hcnt x). assert (Hpos' : cnt (stack m) x > 0 \/ cnt (timers m) x > 0) by lia.
    destruct Hpos' as [Hp|Hp]; apply (count_occ_In Nat.eq_dec) in Hp; auto.
  - same_simpl Sm. pose proof (i_cost I) as Hi.
    pose proof (total_change (fun x => fcost E (G x) (frames m x)) (fun x => fcost E (G x) (frames m' x)) (next m) h Hh) as T.
    cbn beta in T. specialize (T ltac:(intros x Hx; unfold fcost; now rewrite Hoth)).
    assert (F1 : fcost E (G h) (frames m h) = cost (G h) b) by (unfold fcost; now rewrite Hb).
    assert (F2 : fcost E (G h) (frames m' h) = cost (G h) b') by (unfold fcost; now rewrite Hb').
    rewrite F1, F2 in T. lia.
Qed.

(** The coroutine on the top of the stack. *)
Lemma top_facts u b0 E G P n m h st :
  inv u b0 E G P n m -> stack m = h :: st ->
  h < next m /\ alive (frames m h) = true /\ is_done (frames m h) = false /\
  (exists b, code (frames m h) = Run b) /\ cnt st h = 0 /\ cnt (timers m) h = 0.
Proof.
  intros I Hst. assert (Hh : h < next m) by (apply (i_in I); left; rewrite Hst; now left).
  pose proof (i_count I h Hh) as C. rewrite Hst in C. unfold cnt in C. simpl in C.
  destruct (Nat.eq_dec h h) as [_|]; [|congruence]. unfold running in C.
  destruct (code (frames m h)) as [b|c k|] eqn:Hc; try lia.
  assert (Hd : is_done (frames m h) = false) by (unfold is_done; now rewrite Hc).
  repeat split; auto.
  - now apply (i_alive I).
  - now exists b.
  - unfold cnt; lia.
  - unfold cnt; lia.
Qed.

Lemma in_cnt x l : In x l <-> cnt l x > 0.
Proof. apply count_occ_In. Qed.

Lemma cnt_cons x y l : cnt (x :: l) y = (if Nat.eqb x y then 1 else 0) + cnt l y.
Proof. unfold cnt. simpl. destruct (Nat.eq_dec x y) as [e|e]; destruct (Nat.eqb_spec x y); congruence || reflexivity. Qed.

Lemma cnt_app x l l' : cnt (l ++ l') x = cnt l x + cnt l' x.
Proof. unfold cnt. induction l as [|y l IH]; simpl; auto. destruct (Nat.eq_dec y x); lia. Qed.

Lemma cnt_nil x : cnt [] x = 0.
Proof. reflexivity. Qed.

Ltac ud1 x h := destruct (Nat.eq_dec x h) as [?e|?e]; [subst x; rewrite ?upd_eq in * | rewrite ?(upd_neq _ h _ x) in * by assumption].

Lemma step_timer u b0 E G P n m h st k :
  inv u b0 E G P n m -> stack m = h :: st -> code (frames m h) = Run (CTimer k) ->
  inv u b0 E G P (S n) (Machine (upd (frames m) h (set_code (frames m h) (Run k))) (next m) st (timers m ++ [h]) (destroyed m)).
Proof.
  intros I Hst Hc. destruct (top_facts _ _ _ _ _ _ _ _ _ I Hst) as (Hh & _).
  destruct (i_run I h _ Hh Hc) as [Hev Hs].
  eapply inv_code with (P := P) (P' := P) (h := h) (b' := k); try exact I; try exact Hc; cbn [frames next stack timers destroyed]; auto.
  - split; cbn [frames next stack timers destroyed]; auto; intros x; ud1 x h; reflexivity.
  - now rewrite upd_eq.
  - intros x Hx. now rewrite upd_neq.
  - intros x. rewrite Hst, cnt_app, !cnt_cons, cnt_nil. lia.
  - rewrite app_length. cbn [cost length]. lia.
Qed.

Lemma step_await_done u b0 E G P n m h st i k c o :
  inv u b0 E G P n m -> stack m = h :: st -> code (frames m h) = Run (CAwait i k) ->
  nth_error (locals (frames m h)) i = Some (Some c) -> is_done (frames m c) = true -> result (frames m c) = Some o ->
  inv u b0 E G (upd P h (set_nth (P h) i false)) (S n)
    (Machine (upd (frames m) h (set_code (frames m h) (Run (k o)))) (next m) (h :: st) (timers m) (destroyed m)).
Proof.
  intros I Hst Hc Hl Hd Hr. destruct (top_facts _ _ _ _ _ _ _ _ _ I Hst) as (Hh & _ & Hnd & _).
  destruct (i_run I h _ Hh Hc) as [Hev [Hp Hs]].
  destruct (i_loc I h i c Hh Hl) as (Hc' & _ & _ & HG).
  assert (Ho : o = E c).
  { unfold is_done in Hd. destruct (code (frames m c)) eqn:Hcc; try discriminate.
    destruct (i_done I c ltac:(lia) Hcc) as [Hx _]. congruence. }
  assert (Hi : i < length (P h)) by (apply nth_error_Some; congruence).
  eapply inv_code with (P := P) (h := h) (b' := k o); try exact I; try exact Hc; cbn [frames next stack timers destroyed]; auto.
  - split; cbn [frames next stack timers destroyed]; auto; intros x; ud1 x h; reflexivity.
  - now rewrite upd_eq.
  - intros x Hx. now rewrite upd_neq.
  - intros x Hx. now rewrite upd_neq.
  - cbn [eval]. rewrite HG. now subst.
  - rewrite upd_eq. apply Hs.
  - now rewrite upd_eq, set_nth_length.
  - intros j. rewrite upd_eq. destruct (Nat.eq_dec j i) as [e|e].
    + subst j. rewrite nth_error_set_nth_eq by auto. congruence.
    + now rewrite nth_error_set_nth_neq.
  - intros j c'. rewrite upd_eq. destruct (Nat.eq_dec j i) as [e|e].
    + subst j. intros _ Hl'. right. congruence.
    + rewrite nth_error_set_nth_neq by auto. auto.
  - rewrite Hst. intros; lia.
  - cbn [cost]. rewrite HG. subst. lia.
Qed.

Lemma step_fire u b0 E G P n m i h :
  inv u b0 E G P n m -> stack m = [] -> nth_error (timers m) i = Some h ->
  inv u b0 E G P (S n) (Machine (frames m) (next m) [h] (firstn i (timers m) ++ skipn (S i) (timers m)) (destroyed m)).
Proof.
  intros I Hst Hi.
  assert (Hin : In h (timers m)) by (eapply nth_error_In; eauto).
  assert (Hh : h < next m) by (apply (i_in I); auto).
  pose proof (i_count I h Hh) as C. rewrite Hst in C. apply in_cnt in Hin.
  destruct (code (frames m h)) as [b|c k|] eqn:Hc; unfold running in C; rewrite Hc in C; rewrite cnt_nil in C; try lia.
  assert (Hsplit : timers m = firstn i (timers m) ++ h :: skipn (S i) (timers m)).
  { clear -Hi. revert i Hi. induction (timers m) as [|x l IH]; intros [|i] Hi; simpl in *; try discriminate.
    - congruence.
    - f_equal. now apply IH. }
  destruct (i_run I h _ Hh Hc) as [Hev Hs].
  eapply inv_code with (P := P) (P' := P) (h := h) (b := b) (b' := b); try exact I; cbn [frames next stack timers destroyed]; auto.
  - now split.
  - intros x. rewrite Hst. rewrite Hsplit at 3. rewrite !cnt_app, !cnt_cons, cnt_nil. lia.
  - rewrite Hsplit at 3. rewrite !app_length. cbn [length]. lia.
Qed.

Lemma step_spawn u b0 E G P n m h st b k :
  inv u b0 E G P n m -> stack m = h :: st -> code (frames m h) = Run (CSpawn b k) ->
  let c := next m in
  inv u b0 (upd E c (eval [] b)) (upd (upd G c []) h (G h ++ [eval [] b])) (upd (upd P c []) h (P h ++ [true])) (S n)
    (Machine (upd (upd (frames m) c (new_frame b)) h (add_local (set_code (frames m h) (Run k)) c)) (S c) (c :: h :: st) (timers m) (destroyed m)).
Proof.
  intros I Hst Hc. cbv zeta. set (c := next m).
  destruct (top_facts _ _ _ _ _ _ _ _ _ I Hst) as (Hh & Hal & Hnd & _).
  destruct (i_run I h _ Hh Hc) as [Hev [Hsb Hsk]].
  destruct (i_len I h Hh Hnd) as [LG LP].
  assert (Hhc : h <> c) by (unfold c; lia).
  assert (Hold : forall x, x < next m -> x <> c) by (unfold c; intros; lia).
  set (F := upd (upd (frames m) c (new_frame b)) h (add_local (set_code (frames m h) (Run k)) c)).
  assert (FH : F h = add_local (set_code (frames m h) (Run k)) c) by (unfold F; now rewrite upd_eq).
  assert (FC : F c = new_frame b) by (unfold F; rewrite upd_neq by auto; now rewrite upd_eq).
  assert (FO : forall x, x <> h -> x <> c -> F x = frames m x) by (intros; unfold F; now rewrite !upd_neq).
  assert (Aw : forall x, x <> c -> awaiting (F x) = awaiting (frames m x)).
  { intros x Hx. destruct (Nat.eq_dec x h) as [e|e]; [subst x; now rewrite FH|now rewrite FO]. }
  assert (Dn : forall x, x <> c -> is_done (F x) = is_done (frames m x)).
  { intros x Hx. destruct (Nat.eq_dec x h) as [e|e]; [subst x; rewrite FH; rewrite Hnd; reflexivity|now rewrite FO]. }
  assert (Al : forall x, x <> c -> alive (F x) = alive (frames m x)).
  { intros x Hx. destruct (Nat.eq_dec x h) as [e|e]; [subst x; now rewrite FH|now rewrite FO]. }
  assert (Ow : forall x, x <> c -> owned (F x) = owned (frames m x)).
  { intros x Hx. destruct (Nat.eq_dec x h) as [e|e]; [subst x; now rewrite FH|now rewrite FO]. }
  assert (Lo : forall x i y, x < S c -> nth_error (locals (F x)) i = Some (Some y) ->
    (x < next m /\ nth_error (locals (frames m x)) i = Some (Some y)) \/ (x = h /\ y = c /\ i = length (locals (frames m h)))).
  { intros x i y Hx Hl. destruct (Nat.eq_dec x c) as [e|e]; [subst x; rewrite FC in Hl; cbn in Hl; now destruct i|].
    destruct (Nat.eq_dec x h) as [e'|e'].
    - subst x. rewrite FH in Hl. cbn [add_local set_code locals] in Hl.
      destruct (Nat.lt_ge_cases i (length (locals (frames m h)))) as [Hi|Hi].
      + rewrite nth_error_app1 in Hl by auto. auto.
      + rewrite nth_error_app2 in Hl by auto.
        destruct (i - length (locals (frames m h))) as [|[|j]] eqn:Hj; cbn in Hl; try discriminate.
        injection Hl as Hl. right. repeat split; auto. lia.
    - rewrite FO in Hl by auto. left. split; auto. unfold c in *. lia. }
  assert (LoI : forall x i y, x < next m -> nth_error (locals (frames m x)) i = Some (Some y) -> nth_error (locals (F x)) i = Some (Some y)).
  { intros x i y Hx Hl. destruct (Nat.eq_dec x h) as [e'|e'].
    - subst x. rewrite FH. cbn [add_local set_code locals]. rewrite nth_error_app1; auto. apply nth_error_Some; congruence.
    - rewrite FO; auto. }
  split; cbn [frames next stack timers destroyed].
  - destruct (i_zero I) as (A & B & C). split; [lia|]. rewrite upd_neq by (unfold c; lia). split; auto.
    rewrite Ow; auto; unfold c; lia.
  - intros x y Hx Hy. ud1 x h.
    + rewrite FH in Hy. cbn in Hy. injection Hy as Hy. subst y. rewrite upd_neq by auto. split; auto.
    + ud1 x c.
      * rewrite FC in Hy. cbn in Hy. injection Hy as Hy. subst y. auto.
      * rewrite FO in Hy by auto. apply (i_run I); auto. unfold c in *; lia.
  - intros x y j Hx Hy. ud1 x h; [rewrite FH in Hy; discriminate|]. ud1 x c; [rewrite FC in Hy; discriminate|].
    rewrite FO in Hy by auto. assert (Hx' : x < next m) by (unfold c in *; lia).
    destruct (i_wait I x y j Hx' Hy) as (A1 & A2 & A3 & A4 & i & A5).
    destruct (i_loc I x i y Hx' A5) as (B1 & _).
    rewrite (upd_neq E) by (unfold c; lia). rewrite Aw, Dn by (unfold c; lia). repeat split; auto. exists i. now apply LoI.
  - intros x Hx Hy. ud1 x h; [rewrite FH in Hy; discriminate|]. ud1 x c; [rewrite FC in Hy; discriminate|].
    rewrite FO in * by auto. apply (i_done I); auto. unfold c in *; lia.
  - intros x Hx Hy. ud1 x h.
    + rewrite FH. cbn [add_local set_code locals]. rewrite !app_length. cbn [length]. lia.
    + ud1 x c; [rewrite FC; now cbn|]. rewrite FO in * by auto. apply (i_len I); auto. unfold c in *; lia.
  - intros x i y Hx Hl. destruct (Lo x i y Hx Hl) as [[Hx' Hl']|(-> & -> & ->)].
    + destruct (i_loc I x i y Hx' Hl') as (B1 & B2 & B3 & B4).
      rewrite Al, Ow by (unfold c; lia). rewrite (upd_neq E) by (unfold c; lia). repeat split; auto; try (unfold c; lia).
      destruct (Nat.eq_dec x h) as [e|e].
      * subst x. rewrite upd_eq. rewrite nth_error_app1; auto. apply nth_error_Some; congruence.
      * rewrite !upd_neq; auto.
    + rewrite FC. rewrite !upd_eq. repeat split; try (unfold c; lia). rewrite <- LG, nth_error_app2, Nat.sub_diag by lia. reflexivity.
  - intros x i Hx Hy Hp. ud1 x h.
    + destruct (Nat.lt_ge_cases i (length (P h))) as [Hi|Hi].
      * rewrite nth_error_app1 in Hp by auto. destruct (i_true I h i Hh Hnd Hp) as (y & A1 & A2).
        destruct (i_loc I h i y Hh A1) as (B1 & _).
        exists y. split; [now apply LoI|]. rewrite Aw; auto. unfold c; lia.
      * rewrite nth_error_app2 in Hp by auto. destruct (i - length (P h)) as [|[|j]] eqn:Hj; cbn in Hp; try discriminate.
        exists c. rewrite FC, FH. cbn [add_local set_code locals]. split; auto. rewrite nth_error_app2 by lia.
        replace (i - length (locals (frames m h))) with 0 by lia. reflexivity.
    + ud1 x c; [now destruct i|]. rewrite FO in Hy by auto. assert (Hx' : x < next m) by (unfold c in *; lia).
      destruct (i_true I x i Hx' Hy Hp) as (y & A1 & A2). destruct (i_loc I x i y Hx' A1) as (B1 & _).
      exists y. split; [now apply LoI|]. rewrite Aw; auto. unfold c; lia.
  - intros x i y Hx Hp Hl. destruct (Lo x i y Hx Hl) as [[Hx' Hl']|(-> & -> & ->)].
    + destruct (i_loc I x i y Hx' Hl') as (B1 & _). rewrite Dn by (unfold c; lia).
      assert (Hp' : nth_error (P x) i = Some false).
      { destruct (Nat.eq_dec x h) as [e|e].
        - subst x. rewrite upd_eq in Hp. rewrite nth_error_app1 in Hp; auto. rewrite LP. apply nth_error_Some; congruence.
        - rewrite !upd_neq in Hp; auto. }
      destruct (i_false I x i y Hx' Hp' Hl') as [A|[j A]]; auto.
      right. exists j. destruct (Nat.eq_dec x h) as [e|e]; [subst x; congruence|]. rewrite FO; auto.
    + rewrite upd_eq in Hp. rewrite <- LP, nth_error_app2, Nat.sub_diag in Hp by lia. discriminate.
  - intros y p Hy Ha Hd. destruct (Nat.eq_dec y c) as [e|e]; [subst y; rewrite FC in Ha; discriminate|].
    rewrite Aw in Ha by auto. rewrite Dn in Hd by auto. assert (Hy' : y < next m) by (unfold c in *; lia).
    destruct (i_await I y p Hy' Ha Hd) as [A [j B]]. split; [unfold c; lia|]. exists j.
    destruct (Nat.eq_dec p h) as [e'|e']; [subst p; congruence|]. rewrite FO; auto.
  - intros x i x' i' y Hx Hx' Hl Hl'.
    destruct (Lo x i y Hx Hl) as [[A1 A2]|(A1 & A2 & A3)]; destruct (Lo x' i' y Hx' Hl') as [[B1 B2]|(B1 & B2 & B3)].
    + now apply (i_uniq I x i x' i' y).
    + destruct (i_loc I x i y A1 A2) as (C & _). unfold c in *; lia.
    + destruct (i_loc I x' i' y B1 B2) as (C & _). unfold c in *; lia.
    + subst. auto.
  - intros x Hx Hd. destruct (Nat.eq_dec x c) as [e|e]; [subst x; now rewrite FC|].
    rewrite Al by auto. rewrite Dn in Hd by auto. apply (i_alive I); auto. unfold c in *; lia.
  - intros x Hx. destruct (Nat.eq_dec x c) as [e|e].
    + subst x. rewrite FC. cbn. split; [discriminate|]. intros Hin. apply (i_destroyed I) in Hin. unfold c in *; lia.
    + rewrite Al by auto. apply (i_dead I). unfold c in *; lia.
  - destruct (i_destroyed I) as [A B]. split; auto. intros x Hx. specialize (B x Hx). unfold c; lia.
  - intros x Hx. destruct (Nat.eq_dec x c) as [e|e].
    + subst x. left. exists h, (length (locals (frames m h))). split; [unfold c; lia|]. rewrite FH. cbn [add_local set_code locals].
      now rewrite nth_error_app2, Nat.sub_diag by lia.
    + destruct (i_orphan I x ltac:(unfold c in *; lia)) as [(y & i & A1 & A2)|[A|A]]; auto.
      * left. exists y, i. split; [unfold c; lia|]. now apply LoI.
      * right; right. now rewrite Ow.
  - intros Hu x Hx. destruct (Nat.eq_dec x c) as [e|e]; [subst x; now rewrite FC|].
    rewrite Ow by auto. apply (i_owned I Hu). unfold c in *; lia.
  - intros x Hx. rewrite !cnt_cons. destruct (Nat.eq_dec x c) as [e|e].
    + subst x. rewrite FC, Nat.eqb_refl. cbn [running new_frame code].
      assert (A : ~ In c (stack m)) by (intros A; assert (c < next m) by (apply (i_in I); auto); unfold c in *; lia).
      assert (B : ~ In c (timers m)) by (intros B; assert (c < next m) by (apply (i_in I); auto); unfold c in *; lia).
      rewrite in_cnt in A, B. rewrite Hst, cnt_cons in A. unfold running. cbn [code]. lia.
    + pose proof (i_count I x ltac:(unfold c in *; lia)) as C. rewrite Hst, cnt_cons in C.
      assert (R : running (F x) = running (frames m x)).
      { destruct (Nat.eq_dec x h) as [e'|e']; [subst x; rewrite FH; unfold running; now rewrite Hc|now rewrite FO]. }
      rewrite R. destruct (Nat.eqb_spec c x); [congruence|]. lia.
  - intros x [[<-|[<-|Hx]]|Hx]; try (unfold c; lia).
    + assert (x < next m) by (apply (i_in I); left; rewrite Hst; now right). unfold c; lia.
    + assert (x < next m) by (apply (i_in I); auto). unfold c; lia.
  - rewrite <- (i_cost I). cbn [total].
    set (g := fun x => fcost E (G x) (frames m x)).
    set (g' := fun x => fcost (upd E c (eval [] b)) (upd (upd G c []) h (G h ++ [eval [] b]) x) (F x)).
    assert (Gc : g' c = cost [] b).
    { unfold g'. rewrite upd_neq by auto. rewrite upd_eq, FC. reflexivity. }
    assert (Gh : g' h = cost (G h ++ [eval [] b]) k) by (unfold g'; rewrite upd_eq, FH; reflexivity).
    assert (Oh : g h = 1 + cost [] b + cost (G h ++ [eval [] b]) k) by (unfold g, fcost; rewrite Hc; reflexivity).
    set (g'' := fun x => if Nat.eqb x h then g' h else g x).
    assert (T1 : total g' (next m) = total g'' (next m)).
    { apply total_ext. intros x Hx. unfold g''. destruct (Nat.eqb_spec x h) as [e|e]; [now subst|].
      unfold g', g. rewrite (upd_neq (upd G c [])) by auto.
      rewrite (upd_neq G) by (unfold c; lia). rewrite FO by (auto || (unfold c; lia)).
      unfold fcost. destruct (code (frames m x)) as [?|y j|] eqn:Hy; auto.
      destruct (i_wait I x y j Hx Hy) as (_ & _ & _ & _ & i & A5). destruct (i_loc I x i y Hx A5) as (B1 & _).
      rewrite upd_neq by (unfold c; lia). reflexivity. }
    pose proof (total_change g g'' (next m) h Hh) as T. cbn beta in T.
    specialize (T ltac:(intros x Hx; unfold g''; destruct (Nat.eqb_spec x h); congruence)).
    assert (G2 : g'' h = g' h) by (unfold g''; now rewrite Nat.eqb_refl).
    change (S n + (total g' (next m) + g' c) + length (timers m) = n + total g (next m) + length (timers m)). lia.
Qed.

Lemma step_await_wait u b0 E G P n m h st i k c :
  inv u b0 E G P n m -> stack m = h :: st -> code (frames m h) = Run (CAwait i k) ->
  nth_error (locals (frames m h)) i = Some (Some c) -> is_done (frames m c) = false ->
  inv u b0 E G (upd P h (set_nth (P h) i false)) (S n)
    (Machine (upd (upd (frames m) c (set_await (frames m c) h)) h (set_code (frames m h) (Wait c k))) (next m) st (timers m) (destroyed m)).
Proof.
  intros I Hst Hc Hl Hcd.
  destruct (top_facts _ _ _ _ _ _ _ _ _ I Hst) as (Hh & Hal & Hnd & _ & Ct1 & Ct2).
  destruct (i_run I h _ Hh Hc) as [Hev [Hp Hsk]].
  destruct (i_loc I h i c Hh Hl) as (Hhc & Hcal & Hcow & HG).
  destruct (i_true I h i Hh Hnd Hp) as (c' & Hl' & Haw). assert (c' = c) by congruence; subst c'.
  assert (Hi : i < length (P h)) by (apply nth_error_Some; congruence).
  set (F := upd (upd (frames m) c (set_await (frames m c) h)) h (set_code (frames m h) (Wait c k))).
  assert (FH : F h = set_code (frames m h) (Wait c k)) by (unfold F; now rewrite upd_eq).
  assert (FC : F c = set_await (frames m c) h) by (unfold F; rewrite upd_neq by lia; now rewrite upd_eq).
  assert (FO : forall x, x <> h -> x <> c -> F x = frames m x) by (intros; unfold F; now rewrite !upd_neq).
  assert (Lo : forall x, locals (F x) = locals (frames m x)).
  { intros x. destruct (Nat.eq_dec x h) as [e|e]; [subst x; now rewrite FH|].
    destruct (Nat.eq_dec x c) as [e'|e']; [subst x; now rewrite FC|]. now rewrite FO. }
  assert (Al : forall x, alive (F x) = alive (frames m x)).
  { intros x. destruct (Nat.eq_dec x h) as [e|e]; [subst x; now rewrite FH|].
    destruct (Nat.eq_dec x c) as [e'|e']; [subst x; now rewrite FC|]. now rewrite FO. }
  assert (Ow : forall x, owned (F x) = owned (frames m x)).
  { intros x. destruct (Nat.eq_dec x h) as [e|e]; [subst x; now rewrite FH|].
    destruct (Nat.eq_dec x c) as [e'|e']; [subst x; now rewrite FC|]. now rewrite FO. }
  assert (Rs : forall x, result (F x) = result (frames m x)).
  { intros x. destruct (Nat.eq_dec x h) as [e|e]; [subst x; now rewrite FH|].
    destruct (Nat.eq_dec x c) as [e'|e']; [subst x; now rewrite FC|]. now rewrite FO. }
  assert (Cd : forall x, x <> h -> code (F x) = code (frames m x)).
  { intros x Hx. destruct (Nat.eq_dec x c) as [e'|e']; [subst x; now rewrite FC|]. now rewrite FO. }
  assert (Aw : forall x, x <> c -> awaiting (F x) = awaiting (frames m x)).
  { intros x Hx. destruct (Nat.eq_dec x h) as [e'|e']; [subst x; now rewrite FH|]. now rewrite FO. }
  assert (Dn : forall x, is_done (F x) = is_done (frames m x)).
  { intros x. destruct (Nat.eq_dec x h) as [e|e]; [subst x; rewrite FH, Hnd; reflexivity|]. unfold is_done. now rewrite Cd. }
  split; cbn [frames next stack timers destroyed].
  - rewrite Ow. apply (i_zero I).
  - intros x y Hx Hy. ud1 x h; [rewrite FH in Hy; discriminate|]. rewrite Cd in Hy by auto. now apply (i_run I).
  - intros x y j Hx Hy. ud1 x h.
    + rewrite FH in Hy. cbn in Hy. injection Hy as Hy1 Hy2. subst y j.
      rewrite <- Hev. cbn [eval]. rewrite HG, FC. repeat split; auto. exists i. now rewrite Lo.
    + rewrite Cd in Hy by auto. destruct (i_wait I x y j Hx Hy) as (A1 & A2 & A3 & A4 & i' & A5).
      rewrite Dn, Lo. destruct (Nat.eq_dec y c) as [e'|e']; [subst y; congruence|].
      rewrite Aw by auto. repeat split; eauto.
  - intros x Hx Hy. ud1 x h; [rewrite FH in Hy; discriminate|]. rewrite Cd in Hy by auto. rewrite Rs, Lo. now apply (i_done I).
  - intros x Hx Hy. rewrite Dn in Hy. rewrite Lo. destruct (i_len I x Hx Hy). ud1 x h; [rewrite set_nth_length|]; auto.
  - intros x j y Hx Hy. rewrite Lo in Hy. rewrite Al, Ow. now apply (i_loc I).
  - intros x j Hx Hy Hq. rewrite Dn in Hy. rewrite Lo.
    assert (Hq' : nth_error (P x) j = Some true /\ (x = h -> j <> i)).
    { ud1 x h; [|split; auto; congruence]. destruct (Nat.eq_dec j i) as [e|e].
      - subst j. rewrite nth_error_set_nth_eq in Hq by auto. discriminate.
      - rewrite nth_error_set_nth_neq in Hq by auto. auto. }
    destruct Hq' as [Hq' Hne]. destruct (i_true I x j Hx Hy Hq') as (y & A1 & A2). exists y. split; auto.
    rewrite Aw; auto. intros ->. destruct (i_uniq I x j h i c Hx Hh A1 Hl) as [e1 e2]. subst. now apply Hne.
  - intros x j y Hx Hq Hy. rewrite Lo in Hy. rewrite Dn. ud1 x h.
    + destruct (Nat.eq_dec j i) as [e|e].
      * subst j. right. exists k. rewrite FH. cbn. congruence.
      * rewrite nth_error_set_nth_neq in Hq by auto. destruct (i_false I h j y Hh Hq Hy) as [A|[z A]]; auto. congruence.
    + rewrite Cd by auto. now apply (i_false I x j y).
  - intros y p Hy Ha Hd. rewrite Dn in Hd. destruct (Nat.eq_dec y c) as [e|e].
    + subst y. rewrite FC in Ha. cbn in Ha. injection Ha as Ha. subst p. split; auto. exists k. now rewrite FH.
    + rewrite Aw in Ha by auto. destruct (i_await I y p Hy Ha Hd) as [A [z B]]. split; auto. exists z.
      destruct (Nat.eq_dec p h) as [e'|e']; [subst p; congruence|]. now rewrite Cd.
  - intros x j x' j' y Hx Hx' H1 H2. rewrite Lo in *. now apply (i_uniq I x j x' j' y).
  - intros x Hx Hd. rewrite Dn in Hd. rewrite Al. now apply (i_alive I).
  - intros x Hx. rewrite Al. now apply (i_dead I).
  - apply (i_destroyed I).
  - intros x Hx. rewrite Ow. destruct (i_orphan I x Hx) as [(y & j & A1 & A2)|A]; auto. left. exists y, j. now rewrite Lo.
  - intros Hu x Hx. rewrite Ow. now apply (i_owned I).
  - intros x Hx. pose proof (i_count I x Hx) as C. rewrite Hst, cnt_cons in C. ud1 x h.
    + rewrite FH. unfold running in *. cbn [set_code code]. rewrite Hc, Nat.eqb_refl in C. lia.
    + unfold running. rewrite Cd by auto. unfold running in C. destruct (Nat.eqb_spec h x); [congruence|]. lia.
  - intros x Hx. apply (i_in I). rewrite Hst. destruct Hx; auto. left. now right.
  - rewrite <- (i_cost I).
    pose proof (total_change (fun x => fcost E (G x) (frames m x)) (fun x => fcost E (G x) (F x)) (next m) h Hh) as T.
    cbn beta in T. specialize (T ltac:(intros x Hx; unfold fcost; now rewrite Cd)).
    assert (F1 : fcost E (G h) (frames m h) = 1 + cost (G h) (k (E c))) by (unfold fcost; rewrite Hc; cbn [cost]; now rewrite HG).
    assert (F2 : fcost E (G h) (F h) = cost (G h) (k (E c))) by (rewrite FH; reflexivity).
    lia.
Qed.

Lemma step_detach u b0 E G P n m h st i k c :
  inv u b0 E G P n m -> stack m = h :: st -> code (frames m h) = Run (CDetach i k) ->
  nth_error (locals (frames m h)) i = Some (Some c) ->
  inv u b0 E G (upd P h (set_nth (P h) i false)) (S n)
    (Machine (upd (upd (frames m) c (disown (frames m c))) h (set_local (set_code (frames m h) (Run k)) i None)) (next m) (h :: st) (timers m) (destroyed m)).
Proof.
  intros I Hst Hc Hl.
  destruct (top_facts _ _ _ _ _ _ _ _ _ I Hst) as (Hh & Hal & Hnd & _ & Ct1 & Ct2).
  destruct (i_run I h _ Hh Hc) as [Hev [Hu [Hp Hsk]]].
  destruct (i_loc I h i c Hh Hl) as (Hhc & Hcal & Hcow & HG).
  assert (Hi : i < length (P h)) by (apply nth_error_Some; congruence).
  assert (Hil : i < length (locals (frames m h))) by (apply nth_error_Some; congruence).
  set (F := upd (upd (frames m) c (disown (frames m c))) h (set_local (set_code (frames m h) (Run k)) i None)).
  assert (FH : F h = set_local (set_code (frames m h) (Run k)) i None) by (unfold F; now rewrite upd_eq).
  assert (FC : F c = disown (frames m c)) by (unfold F; rewrite upd_neq by lia; now rewrite upd_eq).
  assert (FO : forall x, x <> h -> x <> c -> F x = frames m x) by (intros; unfold F; now rewrite !upd_neq).
  assert (Lo : forall x, x <> h -> locals (F x) = locals (frames m x)).
  { intros x Hx. destruct (Nat.eq_dec x c) as [e'|e']; [subst x; now rewrite FC|]. now rewrite FO. }
  assert (LH : locals (F h) = set_nth (locals (frames m h)) i None) by (rewrite FH; reflexivity).
  assert (Lq : forall x j y, x < next m -> nth_error (locals (F x)) j = Some (Some y) ->
    nth_error (locals (frames m x)) j = Some (Some y) /\ y <> c).
  { intros x j y Hx Hy. assert (A : nth_error (locals (frames m x)) j = Some (Some y) /\ (x = h -> j <> i)).
    { destruct (Nat.eq_dec x h) as [e|e].
      - subst x. rewrite LH in Hy. destruct (Nat.eq_dec j i) as [e|e].
        + subst j. rewrite nth_error_set_nth_eq in Hy by auto. discriminate.
        + rewrite nth_error_set_nth_neq in Hy by auto. auto.
      - rewrite Lo in Hy by auto. split; auto; congruence. }
    destruct A as [A B]. split; auto. intros ->. destruct (i_uniq I x j h i c Hx Hh A Hl) as [e1 e2]. subst. now apply B. }
  assert (LI : forall x j y, x < next m -> y <> c -> nth_error (locals (frames m x)) j = Some (Some y) ->
    nth_error (locals (F x)) j = Some (Some y)).
  { intros x j y Hx Hy Hj. destruct (Nat.eq_dec x h) as [e|e].
    - subst x. rewrite LH. destruct (Nat.eq_dec j i) as [e|e]; [subst j; congruence|]. now rewrite nth_error_set_nth_neq.
    - now rewrite Lo. }
  assert (Al : forall x, alive (F x) = alive (frames m x)).
  { intros x. destruct (Nat.eq_dec x h) as [e|e]; [subst x; now rewrite FH|].
    destruct (Nat.eq_dec x c) as [e'|e']; [subst x; now rewrite FC|]. now rewrite FO. }
  assert (Ow : forall x, x <> c -> owned (F x) = owned (frames m x)).
  { intros x Hx. destruct (Nat.eq_dec x h) as [e|e]; [subst x; now rewrite FH|]. now rewrite FO. }
  assert (Rs : forall x, result (F x) = result (frames m x)).
  { intros x. destruct (Nat.eq_dec x h) as [e|e]; [subst x; now rewrite FH|].
    destruct (Nat.eq_dec x c) as [e'|e']; [subst x; now rewrite FC|]. now rewrite FO. }
  assert (Cd : forall x, x <> h -> code (F x) = code (frames m x)).
  { intros x Hx. destruct (Nat.eq_dec x c) as [e'|e']; [subst x; now rewrite FC|]. now rewrite FO. }
  assert (Aw : forall x, awaiting (F x) = awaiting (frames m x)).
  { intros x. destruct (Nat.eq_dec x h) as [e|e]; [subst x; now rewrite FH|].
    destruct (Nat.eq_dec x c) as [e'|e']; [subst x; now rewrite FC|]. now rewrite FO. }
  assert (Dn : forall x, is_done (F x) = is_done (frames m x)).
  { intros x. destruct (Nat.eq_dec x h) as [e|e]; [subst x; rewrite FH, Hnd; reflexivity|]. unfold is_done. now rewrite Cd. }
  split; cbn [frames next stack timers destroyed].
  - rewrite Ow by lia. apply (i_zero I).
  - intros x y Hx Hy. ud1 x h.
    + rewrite FH in Hy. cbn in Hy. injection Hy as Hy. subst y. auto.
    + rewrite Cd in Hy by auto. now apply (i_run I).
  - intros x y j Hx Hy. ud1 x h; [rewrite FH in Hy; discriminate|].
    rewrite Cd in Hy by auto. destruct (i_wait I x y j Hx Hy) as (A1 & A2 & A3 & A4 & i' & A5).
    rewrite Dn, Lo, Aw by auto. repeat split; eauto.
  - intros x Hx Hy. ud1 x h; [rewrite FH in Hy; discriminate|]. rewrite Cd in Hy by auto. rewrite Rs, Lo by auto. now apply (i_done I).
  - intros x Hx Hy. rewrite Dn in Hy. destruct (i_len I x Hx Hy). ud1 x h; [rewrite LH, !set_nth_length|rewrite Lo by auto]; auto.
  - intros x j y Hx Hy. destruct (Lq x j y Hx Hy) as [A B]. rewrite Al, Ow by auto. now apply (i_loc I).
  - intros x j Hx Hy Hq. rewrite Dn in Hy.
    assert (Hq' : nth_error (P x) j = Some true /\ (x = h -> j <> i)).
    { ud1 x h; [|split; auto; congruence]. destruct (Nat.eq_dec j i) as [e|e].
      - subst j. rewrite nth_error_set_nth_eq in Hq by auto. discriminate.
      - rewrite nth_error_set_nth_neq in Hq by auto. auto. }
    destruct Hq' as [Hq' Hne]. destruct (i_true I x j Hx Hy Hq') as (y & A1 & A2). exists y. rewrite Aw. split; auto.
    apply LI; auto. intros ->. destruct (i_uniq I x j h i c Hx Hh A1 Hl) as [e1 e2]. subst. now apply Hne.
  - intros x j y Hx Hq Hy. destruct (Lq x j y Hx Hy) as [A B]. rewrite Dn. ud1 x h.
    + destruct (Nat.eq_dec j i) as [e|e]; [subst j; congruence|].
      rewrite nth_error_set_nth_neq in Hq by auto. destruct (i_false I h j y Hh Hq A) as [A'|[z A']]; auto. congruence.
    + rewrite Cd by auto. now apply (i_false I x j y).
  - intros y p Hy Ha Hd. rewrite Dn in Hd. rewrite Aw in Ha. destruct (i_await I y p Hy Ha Hd) as [A [z B]]. split; auto. exists z.
    destruct (Nat.eq_dec p h) as [e'|e']; [subst p; congruence|]. now rewrite Cd.
  - intros x j x' j' y Hx Hx' H1 H2. destruct (Lq x j y Hx H1) as [A _]. destruct (Lq x' j' y Hx' H2) as [B _].
    now apply (i_uniq I x j x' j' y).
  - intros x Hx Hd. rewrite Dn in Hd. rewrite Al. now apply (i_alive I).
  - intros x Hx. rewrite Al. now apply (i_dead I).
  - apply (i_destroyed I).
  - intros x Hx. destruct (Nat.eq_dec x c) as [e|e]; [subst x; right; right; now rewrite FC|].
    rewrite Ow by auto. destruct (i_orphan I x Hx) as [(y & j & A1 & A2)|A]; auto. left. exists y, j. split; auto.
  - intros Hu' x Hx. congruence.
  - intros x Hx. pose proof (i_count I x Hx) as C. rewrite Hst in C. rewrite C. ud1 x h.
    + rewrite FH. unfold running. cbn [set_local set_code code]. now rewrite Hc.
    + unfold running. now rewrite Cd.
  - intros x Hx. apply (i_in I). now rewrite Hst.
  - rewrite <- (i_cost I).
    pose proof (total_change (fun x => fcost E (G x) (frames m x)) (fun x => fcost E (G x) (F x)) (next m) h Hh) as T.
    cbn beta in T. specialize (T ltac:(intros x Hx; unfold fcost; now rewrite Cd)).
    assert (F1 : fcost E (G h) (frames m h) = 1 + cost (G h) k) by (unfold fcost; rewrite Hc; reflexivity).
    assert (F2 : fcost E (G h) (F h) = cost (G h) k) by (rewrite FH; reflexivity).
    lia.
Qed.

Lemma destroy_all_ok ls : forall m,
  (forall c, In (Some c) ls -> alive (frames m c) = true /\ is_done (frames m c) = true) ->
  (forall i j c, nth_error ls i = Some (Some c) -> nth_error ls j = Some (Some c) -> i = j) ->
  exists F D, destroy_all m ls = Ok (Machine F (next m) (stack m) (timers m) (destroyed m ++ D)) /\
    (forall x, In (Some x) ls -> F x = kill (frames m x)) /\
    (forall x, ~ In (Some x) ls -> F x = frames m x) /\
    NoDup D /\ (forall c, In c D <-> In (Some c) ls).
Proof.
  induction ls as [|x ls IH]; intros m Hok Hu.
  - exists (frames m), []. cbn [destroy_all]. rewrite app_nil_r. repeat split; auto; try (now intros ? []); try constructor; try tauto.
    now destruct m.
  - destruct (IH m) as (F & D & E1 & E2 & E3 & E4 & E5).
    { intros c Hc. apply Hok. now right. }
    { intros i j c Hi Hj. assert (A : S i = S j) by (now apply (Hu (S i) (S j) c)). lia. }
    cbn [destroy_all]. rewrite E1. cbn [rbind]. destruct x as [c|].
    + assert (Hn : ~ In (Some c) ls).
      { intros Hin. apply In_nth_error in Hin. destruct Hin as [j Hj]. now specialize (Hu 0 (S j) c eq_refl Hj). }
      unfold destroy. cbn [frames next stack timers destroyed]. rewrite (E3 c Hn).
      destruct (Hok c (or_introl eq_refl)) as [A1 A2]. rewrite A1, A2. cbn [guard andb].
      exists (upd F c (kill (frames m c))), (D ++ [c]). rewrite app_assoc. repeat split; auto.
      * intros y Hy. ud1 y c; auto. destruct Hy as [Hy|Hy]; [congruence|auto].
      * intros y Hy. ud1 y c; [exfalso; apply Hy; now left|]. apply E3. intros A; apply Hy; now right.
      * apply Permutation_NoDup with (c :: D); [apply Permutation_cons_append|]. constructor; auto. now rewrite E5.
      * rewrite in_app_iff, E5. intros [A|[A|[]]]; [now right|left; congruence].
      * rewrite in_app_iff, E5. intros [A|A]; [right; left; congruence|now left].
    + exists F, D. repeat split; auto.
      * intros y [Hy|Hy]; [discriminate|auto].
      * intros y Hy. apply E3. intros A; apply Hy; now right.
      * intros A. right. now apply E5.
      * intros [A|A]; [discriminate|now apply E5].
Qed.

Lemma inv_finish u b0 E G P n m m' h st b o :
  inv u b0 E G P n m -> stack m = h :: st -> code (frames m h) = Run b ->
  eval (G h) b = o -> cost (G h) b = 1 -> (forall i, nth_error (P h) i <> Some true) ->
  next m' = next m -> timers m' = timers m ->
  stack m' = match awaiting (frames m h) with Some p => p :: st | None => st end ->
  code (frames m' h) = Done -> locals (frames m' h) = [] -> result (frames m' h) = Some o -> alive (frames m' h) = owned (frames m h) ->
  (forall x, owned (frames m' x) = owned (frames m x)) ->
  (forall x, awaiting (frames m' x) = awaiting (frames m x)) ->
  (forall x, x <> h -> result (frames m' x) = result (frames m x)) ->
  (forall x, x <> h -> locals (frames m' x) = locals (frames m x)) ->
  (forall x, x <> h -> In (Some x) (locals (frames m h)) -> alive (frames m' x) = false) ->
  (forall x, x <> h -> ~ In (Some x) (locals (frames m h)) -> alive (frames m' x) = alive (frames m x)) ->
  (forall x, x <> h -> awaiting (frames m h) <> Some x -> code (frames m' x) = code (frames m x)) ->
  (forall p k, awaiting (frames m h) = Some p -> code (frames m p) = Wait h k -> code (frames m' p) = Run (k o)) ->
  NoDup (destroyed m') ->
  (forall c, In c (destroyed m') <-> In c (destroyed m) \/ In (Some c) (locals (frames m h)) \/ (c = h /\ owned (frames m h) = false)) ->
  inv u b0 E G P (S n) m'.
Proof.
  intros I Hst Hc Hev Hcost HP En Et Es Ch Lh Rh Ah Ow Aw Rs Lo Al1 Al2 Cd Cp ND InD.
  destruct (top_facts _ _ _ _ _ _ _ _ _ I Hst) as (Hh & Hal & Hnd & _ & Ct1 & Ct2).
  destruct (i_run I h _ Hh Hc) as [HE _]. rewrite HE in Hev. subst o.
  assert (HL : forall i c, nth_error (locals (frames m h)) i = Some (Some c) -> is_done (frames m c) = true).
  { intros i c Hl. destruct (i_len I h Hh Hnd) as [_ LP].
    destruct (nth_error (P h) i) as [[|]|] eqn:Hp.
    - now specialize (HP i).
    - destruct (i_false I h i c Hh Hp Hl) as [A|[k A]]; [auto|congruence].
    - apply nth_error_None in Hp. assert (i < length (locals (frames m h))) by (apply nth_error_Some; congruence). lia. }
  assert (HLin : forall c, In (Some c) (locals (frames m h)) -> is_done (frames m c) = true /\ h < c < next m /\ alive (frames m c) = true).
  { intros c Hin. apply In_nth_error in Hin. destruct Hin as [i Hl]. split; [eauto|]. destruct (i_loc I h i c Hh Hl) as (A & B & _). auto. }
  assert (Hp : forall p, awaiting (frames m h) = Some p ->
     p < next m /\ p <> h /\ exists k, code (frames m p) = Wait h k /\ code (frames m' p) = Run (k (E h))).
  { intros p Ha. destruct (i_await I h p Hh Ha Hnd) as [A [k B]]. split; auto. split; [congruence|]. exists k. split; auto. }
  assert (Cw : forall x, x <> h -> (exists p k, awaiting (frames m h) = Some x /\ x = p /\ code (frames m x) = Wait h k /\ code (frames m' x) = Run (k (E h)))
     \/ (awaiting (frames m h) <> Some x /\ code (frames m' x) = code (frames m x))).
  { intros x Hx. destruct (awaiting (frames m h)) as [p|] eqn:Ha.
    - destruct (Nat.eq_dec x p) as [e|e].
      + subst x. left. destruct (Hp p eq_refl) as (_ & _ & k & A & B). exists p, k. auto.
      + right. split; [congruence|]. apply Cd; congruence.
    - right. split; [congruence|]. apply Cd; congruence. }
  assert (Dn : forall x, x <> h -> is_done (frames m' x) = is_done (frames m x)).
  { intros x Hx. unfold is_done. destruct (Cw x Hx) as [(p & k & _ & _ & A & B)|[_ A]]; [now rewrite A, B|now rewrite A]. }
  assert (Dh : is_done (frames m' h) = true) by (unfold is_done; now rewrite Ch).
  assert (Dm : forall x, is_done (frames m x) = true -> is_done (frames m' x) = true).
  { intros x Hx. destruct (Nat.eq_dec x h) as [e|e]; [now subst|]. now rewrite Dn. }
  split; rewrite ?En.
  - rewrite Ow. apply (i_zero I).
  - intros x y Hx Hy. destruct (Nat.eq_dec x h) as [e|e]; [subst; congruence|].
    destruct (Cw x e) as [(p & k & _ & _ & A & B)|[_ A]].
    + rewrite B in Hy. injection Hy as Hy. subst y. destruct (i_wait I x h k Hx A) as (A1 & A2 & _). auto.
    + rewrite A in Hy. now apply (i_run I).
  - intros x c k Hx Hy. destruct (Nat.eq_dec x h) as [e|e]; [subst; congruence|].
    destruct (Cw x e) as [(p & k' & _ & _ & A & B)|[Hna A]]; [congruence|]. rewrite A in Hy.
    destruct (i_wait I x c k Hx Hy) as (A1 & A2 & A3 & A4 & A5). rewrite Aw, Lo by auto. repeat split; auto.
    rewrite Dn; auto. intros ->. congruence.
  - intros x Hx Hy. destruct (Nat.eq_dec x h) as [e|e]; [subst; auto|].
    destruct (Cw x e) as [(p & k' & _ & _ & A & B)|[Hna A]]; [congruence|]. rewrite A in Hy. rewrite Rs, Lo by auto. now apply (i_done I).
  - intros x Hx Hy. destruct (Nat.eq_dec x h) as [e|e]; [subst; congruence|]. rewrite Dn in Hy by auto. rewrite Lo by auto. now apply (i_len I).
  - intros x i c Hx Hl. destruct (Nat.eq_dec x h) as [e|e]; [subst; rewrite Lh in Hl; now destruct i|].
    rewrite Lo in Hl by auto. destruct (i_loc I x i c Hx Hl) as (A1 & A2 & A3 & A4). rewrite Ow. repeat split; auto; try lia.
    destruct (Nat.eq_dec c h) as [e'|e']; [subst c; congruence|]. rewrite Al2; auto.
    intros Hin. apply In_nth_error in Hin. destruct Hin as [j Hj]. now destruct (i_uniq I x i h j c Hx Hh Hl Hj).
  - intros x i Hx Hy Hq. destruct (Nat.eq_dec x h) as [e|e]; [subst; congruence|]. rewrite Dn in Hy by auto. rewrite Lo by auto.
    destruct (i_true I x i Hx Hy Hq) as (c & A1 & A2). exists c. now rewrite Aw.
  - intros x i c Hx Hq Hl. destruct (Nat.eq_dec x h) as [e|e]; [subst; rewrite Lh in Hl; now destruct i|].
    rewrite Lo in Hl by auto. destruct (i_false I x i c Hx Hq Hl) as [A|[k A]]; [auto|].
    destruct (Cw x e) as [(p & k' & _ & _ & B1 & B2)|[Hna B]].
    + assert (c = h) by congruence. subst c. auto.
    + right. exists k. congruence.
  - intros c p Hc' Ha Hd. destruct (Nat.eq_dec c h) as [e|e]; [subst; congruence|]. rewrite Dn in Hd by auto. rewrite Aw in Ha.
    destruct (i_await I c p Hc' Ha Hd) as [A [k B]]. split; auto. exists k.
    destruct (Nat.eq_dec p h) as [e'|e']; [subst; congruence|].
    destruct (Cw p e') as [(p' & k' & _ & _ & B1 & B2)|[Hna B1]]; congruence.
  - intros x i x' i' c Hx Hx' H1 H2.
    destruct (Nat.eq_dec x h) as [e|e]; [subst; rewrite Lh in H1; now destruct i|].
    destruct (Nat.eq_dec x' h) as [e'|e']; [subst; rewrite Lh in H2; now destruct i'|].
    rewrite Lo in H1, H2 by auto. now apply (i_uniq I x i x' i' c).
  - intros x Hx Hd. destruct (Nat.eq_dec x h) as [e|e]; [subst; congruence|]. rewrite Dn in Hd by auto.
    rewrite Al2; auto. { now apply (i_alive I). } intros Hin. apply HLin in Hin. destruct Hin; congruence.
  - intros c Hc'. rewrite InD, <- (i_dead I c Hc'). destruct (Nat.eq_dec c h) as [e|e].
    + subst c. rewrite Ah. split; [auto|]. intros [A|[A|[_ A]]]; auto; [congruence|]. apply HLin in A. lia.
    + destruct (in_dec (fun a b : option nat => ltac:(decide equality; apply Nat.eq_dec)) (Some c) (locals (frames m h))) as [Hin|Hin].
      * rewrite Al1 by auto. tauto.
      * rewrite Al2 by auto. split; [auto|]. intros [A|[A|[A _]]]; auto; contradiction.
  - split; auto. intros c Hin. apply InD in Hin. destruct Hin as [A|[A|[A B]]].
    + now apply (i_destroyed I).
    + apply HLin in A. lia.
    + subst c. destruct (i_zero I) as (_ & _ & Z). assert (h <> 0) by congruence. lia.
  - intros c Hc'. rewrite InD, Ow. destruct (i_orphan I c Hc') as [(x & i & A1 & A2)|[A|A]]; auto.
    destruct (Nat.eq_dec x h) as [e|e].
    + subst x. apply nth_error_In in A2. auto.
    + left. exists x, i. now rewrite Lo.
  - intros Hu c Hc'. rewrite Ow. now apply (i_owned I).
  - intros x Hx. pose proof (i_count I x Hx) as C. rewrite Hst, cnt_cons in C. rewrite Et, Es.
    destruct (Nat.eq_dec x h) as [e|e].
    + subst x. unfold running. rewrite Ch. destruct (awaiting (frames m h)) as [p|] eqn:Ha; [|lia].
      destruct (Hp p eq_refl) as (_ & A & _). rewrite cnt_cons. destruct (Nat.eqb_spec p h); [congruence|]. lia.
    + destruct (Nat.eqb_spec h x) as [e'|e']; [congruence|]. unfold running in *.
      destruct (Cw x e) as [(p & k' & B0 & _ & B1 & B2)|[Hna B1]].
      * rewrite B0, cnt_cons, Nat.eqb_refl, B2. rewrite B1 in C. lia.
      * rewrite B1. destruct (awaiting (frames m h)) as [p|]; [|lia]. rewrite cnt_cons. destruct (Nat.eqb_spec p x); [congruence|]. lia.
  - intros x Hx. rewrite Et, Es in Hx. destruct (awaiting (frames m h)) as [p|] eqn:Ha.
    + destruct Hx as [[Hx|Hx]|Hx].
      * subst x. now destruct (Hp p eq_refl).
      * apply (i_in I). rewrite Hst. left. now right.
      * apply (i_in I). now right.
    + apply (i_in I). rewrite Hst. destruct Hx; auto. left. now right.
  - rewrite Et, <- (i_cost I).
    pose proof (total_change (fun x => fcost E (G x) (frames m x)) (fun x => fcost E (G x) (frames m' x)) (next m) h Hh) as T.
    cbn beta in T. specialize (T ltac:(intros x Hx; unfold fcost; destruct (Cw x Hx) as [(p & k' & _ & _ & B1 & B2)|[_ B1]]; [now rewrite B1, B2|now rewrite B1])).
    assert (F1 : fcost E (G h) (frames m h) = 1) by (unfold fcost; now rewrite Hc).
    assert (F2 : fcost E (G h) (frames m' h) = 0) by (unfold fcost; now rewrite Ch).
    lia.
Qed.

Lemma step_finish u b0 E G P n m h st b o :
  inv u b0 E G P n m -> stack m = h :: st -> code (frames m h) = Run b ->
  eval (G h) b = o -> cost (G h) b = 1 -> (forall i, nth_error (P h) i <> Some true) ->
  exists m', finish u m h o st = Ok m' /\ inv u b0 E G P (S n) m'.
Proof.
  intros I Hst Hc Hev Hcost HP.
  destruct (top_facts _ _ _ _ _ _ _ _ _ I Hst) as (Hh & Hal & Hnd & _ & Ct1 & Ct2).
  destruct (destroy_all_ok (locals (frames m h)) m) as (F & D & E1 & E2 & E3 & E4 & E5).
  { intros c Hin. apply In_nth_error in Hin. destruct Hin as [i Hl]. destruct (i_loc I h i c Hh Hl) as (A1 & A2 & _). split; auto.
    destruct (i_len I h Hh Hnd) as [_ LP]. destruct (nth_error (P h) i) as [[|]|] eqn:Hp.
    - now specialize (HP i).
    - destruct (i_false I h i c Hh Hp Hl) as [A|[k A]]; [auto|congruence].
    - apply nth_error_None in Hp. assert (i < length (locals (frames m h))) by (apply nth_error_Some; congruence). lia. }
  { intros i j c Hi Hj. now destruct (i_uniq I h i h j c Hh Hh Hi Hj). }
  assert (Lgt : forall c, In (Some c) (locals (frames m h)) -> h < c < next m /\ alive (frames m c) = true).
  { intros c Hin. apply In_nth_error in Hin. destruct Hin as [i Hl]. destruct (i_loc I h i c Hh Hl) as (A1 & A2 & _). auto. }
  assert (FH : F h = frames m h) by (apply E3; intros Hin; apply Lgt in Hin; lia).
  assert (Fc : forall x, code (F x) = code (frames m x) /\ locals (F x) = locals (frames m x) /\ awaiting (F x) = awaiting (frames m x) /\
     result (F x) = result (frames m x) /\ owned (F x) = owned (frames m x)).
  { intros x. destruct (in_dec (fun a b : option nat => ltac:(decide equality; apply Nat.eq_dec)) (Some x) (locals (frames m h))) as [Hin|Hin].
    - rewrite E2 by auto. now cbn.
    - rewrite E3 by auto. auto. }
  assert (Fa : forall x, In (Some x) (locals (frames m h)) -> alive (F x) = false) by (intros; rewrite E2 by auto; reflexivity).
  assert (Fa' : forall x, ~ In (Some x) (locals (frames m h)) -> alive (F x) = alive (frames m x)) by (intros; rewrite E3 by auto; reflexivity).
  assert (NDD : NoDup (destroyed m ++ D)).
  { assert (A : forall l l' : list nat, NoDup l -> NoDup l' -> (forall x, In x l -> ~ In x l') -> NoDup (l ++ l')).
    { clear. induction l as [|y l IH]; intros l' H1 H2 H3; simpl; auto. inversion H1; subst. constructor.
      - rewrite in_app_iff. intros [A|A]; auto. apply (H3 y); auto. now left.
      - apply IH; auto. intros x Hx. apply H3. now right. }
    apply A; auto. { apply (i_destroyed I). } intros x Hx Hx'. rewrite E5 in Hx'. apply Lgt in Hx'.
    destruct Hx' as [B1 B2]. apply (i_dead I) in Hx; [congruence|lia]. }
  unfold finish. rewrite E1. cbn [rbind frames next stack timers destroyed]. rewrite FH.
  destruct (awaiting (frames m h)) as [p|] eqn:Ha.
  - destruct (i_await I h p Hh Ha Hnd) as [Hp [k Hk]].
    destruct (i_wait I p h k Hp Hk) as (_ & _ & _ & _ & i & Hl). destruct (i_loc I p i h Hp Hl) as (B1 & _ & B3 & _).
    rewrite B3. cbn [rbind].
    assert (Pn : ~ In (Some p) (locals (frames m h))) by (intros Hin; apply Lgt in Hin; lia).
    assert (Pal : alive (frames m p) = true) by (apply (i_alive I); auto; unfold is_done; now rewrite Hk).
    unfold resume_awaiting. cbn [frames next stack timers destroyed]. rewrite upd_neq by lia. rewrite upd_eq, (E3 p Pn), Hk, Pal. cbn [complete alive].
    rewrite Hal, orb_true_r. cbn [andb guard].
    eexists. split; [reflexivity|].
    eapply inv_finish; try exact I; try exact Hst; try exact Hc; try exact Hev; try exact Hcost; try exact HP; cbn [frames next stack timers destroyed]; rewrite ?Ha; auto.
    all: try (rewrite upd_neq by lia; rewrite upd_eq; cbn [complete code locals result alive]; congruence).
    + intros x. ud1 x p; [reflexivity|]. ud1 x h; [reflexivity|apply Fc].
    + intros x. ud1 x p; [reflexivity|]. ud1 x h; [cbn; congruence|apply Fc].
    + intros x Hx. ud1 x p; [reflexivity|]. rewrite upd_neq by auto. apply Fc.
    + intros x Hx. ud1 x p; [reflexivity|]. rewrite upd_neq by auto. apply Fc.
    + intros x Hx Hin. ud1 x p; [contradiction|]. rewrite upd_neq by auto. now apply Fa.
    + intros x Hx Hin. ud1 x p; [reflexivity|]. rewrite upd_neq by auto. now apply Fa'.
    + intros x Hx Hna. rewrite !upd_neq by congruence. apply Fc.
    + intros p' k' Hp' Hk'. injection Hp' as Hp'. subst p'. rewrite upd_eq. cbn. congruence.
    + intros c. rewrite in_app_iff, E5. split; [tauto|]. intros [A|[A|[_ A]]]; auto. congruence.
  - destruct (owned (frames m h)) eqn:Hown; cbn [rbind].
    + eexists. split; [reflexivity|].
      eapply inv_finish; try exact I; try exact Hst; try exact Hc; try exact Hev; try exact Hcost; try exact HP; cbn [frames next stack timers destroyed]; rewrite ?Ha; auto.
      all: try (rewrite upd_eq; cbn [complete code locals result alive]; congruence).
      * intros x. ud1 x h; [cbn; congruence|apply Fc].
      * intros x. ud1 x h; [cbn; congruence|apply Fc].
      * intros x Hx. rewrite upd_neq by auto. apply Fc.
      * intros x Hx. rewrite upd_neq by auto. apply Fc.
      * intros x Hx Hin. rewrite upd_neq by auto. now apply Fa.
      * intros x Hx Hin. rewrite upd_neq by auto. now apply Fa'.
      * intros x Hx Hna. rewrite upd_neq by auto. apply Fc.
      * discriminate.
      * intros c. rewrite in_app_iff, E5. split; [tauto|]. intros [A|[A|[_ A]]]; auto. congruence.
    + unfold destroy. cbn [frames next stack timers destroyed]. rewrite upd_eq. cbn [complete alive is_done code]. rewrite Hal. cbn [andb guard rbind].
      unfold is_done. cbn [code guard rbind]. eexists. split; [reflexivity|].
      eapply inv_finish; try exact I; try exact Hst; try exact Hc; try exact Hev; try exact Hcost; try exact HP; cbn [frames next stack timers destroyed]; rewrite ?Ha; auto.
      all: try (rewrite upd_eq; cbn [kill complete code locals result alive]; congruence).
      * intros x. ud1 x h; [cbn; congruence|apply Fc].
      * intros x. ud1 x h; [cbn; congruence|apply Fc].
      * intros x Hx. rewrite !upd_neq by auto. apply Fc.
      * intros x Hx. rewrite !upd_neq by auto. apply Fc.
      * intros x Hx Hin. rewrite !upd_neq by auto. now apply Fa.
      * intros x Hx Hin. rewrite !upd_neq by auto. now apply Fa'.
      * intros x Hx Hna. rewrite !upd_neq by auto. apply Fc.
      * discriminate.
      * apply Permutation_NoDup with (h :: destroyed m ++ D); [apply Permutation_cons_append|]. constructor; auto.
        rewrite in_app_iff, E5. intros [A|A].
        -- apply (i_dead I) in A; [congruence|auto].
        -- apply Lgt in A. lia.
      * intros c. rewrite !in_app_iff, E5. cbn [In]. split; [intros [[A|A]|[A|[]]]; auto|intros [A|[A|[A _]]]; auto].
Qed.

Lemma step_inv u b0 E G P n m r :
  inv u b0 E G P n m -> mstep u m r ->
  exists m', r = Ok m' /\ exists E' G' P', inv u b0 E' G' P' (S n) m'.
Proof.
  intros I Hs. destruct Hs as [m Hne|m i Hst Hi].
  - unfold tick. destruct (stack m) as [|h st] eqn:Hst; [congruence|].
    destruct (top_facts _ _ _ _ _ _ _ _ _ I Hst) as (Hh & Hal & Hnd & [b Hc] & Ct1 & Ct2).
    rewrite Hal. cbn [guard]. rewrite Hc. destruct (i_run I h b Hh Hc) as [Hev Hs].
    destruct b as [v|e|k|b k|i k|i k]; cbn [structured] in Hs.
    + destruct (step_finish _ _ _ _ _ _ _ _ _ _ (OVal v) I Hst Hc eq_refl eq_refl Hs) as (m' & A & B). rewrite A. eauto 6.
    + destruct Hs as [Hu Hs]. subst u.
      destruct (step_finish _ _ _ _ _ _ _ _ _ _ (OExn e) I Hst Hc eq_refl eq_refl Hs) as (m' & A & B). rewrite A. eauto 6.
    + eexists. split; [reflexivity|]. exists E, G, P. now apply step_timer.
    + eexists. split; [reflexivity|]. do 3 eexists. eapply step_spawn; eauto.
    + destruct Hs as [Hp Hs]. destruct (i_true I h i Hh Hnd Hp) as (c & Hl & Ha). rewrite Hl.
      destruct (i_loc I h i c Hh Hl) as (B1 & B2 & _). rewrite B2. cbn [guard]. rewrite Ha.
      destruct (is_done (frames m c)) eqn:Hd.
      * assert (Hr : result (frames m c) = Some (E c)).
        { unfold is_done in Hd. destruct (code (frames m c)) eqn:Hcc; try discriminate. now apply (i_done I c). }
        rewrite Hr. eexists. split; [reflexivity|]. exists E, G. eexists. eapply step_await_done; eauto.
      * eexists. split; [reflexivity|]. exists E, G. eexists. eapply step_await_wait; eauto.
    + destruct Hs as (_ & Hp & Hs). destruct (i_true I h i Hh Hnd Hp) as (c & Hl & Ha). rewrite Hl.
      destruct (i_loc I h i c Hh Hl) as (B1 & B2 & _). rewrite B2. cbn [guard].
      eexists. split; [reflexivity|]. exists E, G. eexists. eapply step_detach; eauto.
  - unfold fire. destruct (nth_error (timers m) i) as [h|] eqn:Hn; [|apply nth_error_None in Hn; lia].
    assert (Hin : In h (timers m)) by (eapply nth_error_In; eauto).
    assert (Hh : h < next m) by (apply (i_in I); auto).
    assert (Hal : alive (frames m h) = true).
    { apply (i_alive I); auto. pose proof (i_count I h Hh) as C. apply in_cnt in Hin. unfold running in C. unfold is_done.
      destruct (code (frames m h)); auto; lia. }
    rewrite Hal. cbn [guard]. eexists. split; [reflexivity|]. exists E, G, P. eapply step_fire; eauto.
Qed.

Lemma run_inv u b n m : structured u [] b -> mrun u n (minit b) m -> exists E G P, inv u b E G P n m.
Proof.
  intros Hs Hr. remember (minit b) as m0 eqn:H0. induction Hr as [m|n m m1 m2 Hr IH Hstep]; subst.
  - do 3 eexists. now apply inv_init.
  - destruct (IH eq_refl) as (E & G & P & I). destruct (step_inv _ _ _ _ _ _ _ _ I Hstep) as (m' & Hm & E' & G' & P' & I').
    injection Hm as Hm. subst. eauto.
Qed.

(** With nothing running and nothing to be resumed every coroutine has finished. *)
Lemma quiescent_done u b E G P n m : inv u b E G P n m -> quiescent m -> forall h, h < next m -> is_done (frames m h) = true.
Proof.
  intros I [Q1 Q2].
  assert (A : forall d h, next m - h <= d -> h < next m -> is_done (frames m h) = true).
  { induction d as [|d IH]; intros h Hd Hh; [lia|].
    pose proof (i_count I h Hh) as C. rewrite Q1, Q2, !cnt_nil in C. unfold running in C. unfold is_done.
    destruct (code (frames m h)) as [b'|c k|] eqn:Hc; auto; [lia|].
    destruct (i_wait I h c k Hh Hc) as (_ & _ & _ & A4 & i & A5). destruct (i_loc I h i c Hh A5) as (B & _).
    rewrite IH in A4; [discriminate|lia|lia]. }
  intros h Hh. now apply (A (next m)); lia.
Qed.

Lemma quiescent_cost u b E G P n m : inv u b E G P n m -> quiescent m -> n = cost [] b.
Proof.
  intros I Q. pose proof (i_cost I) as C. pose proof (quiescent_done _ _ _ _ _ _ _ I Q) as D. destruct Q as [_ Q2]. rewrite Q2 in C.
  assert (T : total (fun h => fcost E (G h) (frames m h)) (next m) = 0).
  { clear -D. induction (next m) as [|k IH]; simpl; auto. rewrite IH by auto. specialize (D k ltac:(lia)).
    unfold fcost, is_done in *. destruct (code (frames m k)); try discriminate. reflexivity. }
  cbn in C. lia.
Qed.
