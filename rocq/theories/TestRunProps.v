(** Running tests (C61). *)
From Coq Require Import ZifyBool ZifyNat String Ascii Sorted.
From Verif Require Import Common CmdLineModel CmdLineSpec CmdLineProofs CmdLineProps TestRunModel.
Local Open Scope list_scope.
Local Notation length := List.length.

(** ** What is expected *)
Section Spec.
Context (beh : nat -> text -> text * verdict).
(** The calls that are made of those that are planned, the first of which is the k-th of the
    program: all of them, up to the first that does not pass. *)
Fixpoint upto (k : nat) (plan : list text) : list text * verdict :=
  match plan with
  | [] => ([], Passed)
  | n :: r => match snd (beh k n) with Passed => let (c, v) := upto (S k) r in (n :: c, v) | v => ([n], v) end
  end.
(** What they write, and what the last of them writes. *)
Fixpoint written (k : nat) (c : list text) : list text := match c with [] => [] | n :: r => fst (beh k n) :: written (S k) r end.
Definition last_written (k : nat) (c : list text) : text := List.last (written k c) [].
End Spec.
Definition text_less (a b : text) : Prop := text_ltb a b = true.
Definition called (l : list event) : list text := flat_map (fun e => match e with Called n => [n] | _ => [] end) l.
Definition shown (l : list event) : list text := flat_map (fun e => match e with Shown s => [s] | _ => [] end) l.
Definition reported (l : list event) : list text := flat_map (fun e => match e with LastOutput s => [s] | _ => [] end) l.
Definition verdicts (l : list event) : list bool := flat_map (fun e => match e with Verdict b => [b] | _ => [] end) l.
Definition listed (l : list event) : list text := flat_map (fun e => match e with Listed n => [n] | _ => [] end) l.

(** ** The order of the names *)
Lemma text_ltb_irrefl a : text_ltb a a = false.
Proof. destruct (text_ltb a a) eqn:E; auto. now rewrite (text_ltb_asym _ _ E) in E. Qed.
Lemma text_ltb_trans a : forall b c, text_ltb a b = true -> text_ltb b c = true -> text_ltb a c = true.
Proof.
  induction a as [|x a IH]; intros [|y b] [|z c]; cbn; auto; try discriminate. intros H1 H2. apply orb_true_iff in H1, H2. rewrite andb_true_iff in *. apply orb_true_iff. rewrite andb_true_iff.
  destruct H1 as [H1|[E1 H1]], H2 as [H2|[E2 H2]]; try (left; lia). right. split; [lia|eauto].
Qed.
Lemma text_ltb_total a : forall b, text_ltb a b = false -> text_ltb b a = false -> a = b.
Proof.
  induction a as [|x a IH]; intros [|y b]; cbn; auto; try discriminate. intros H1 H2. apply orb_false_iff in H1, H2. destruct H1 as [H1 E1], H2 as [H2 E2].
  assert (x = y) by lia. subst y. rewrite Z.eqb_refl in *. cbn in *. f_equal. now apply IH.
Qed.
Lemma map_insert_ok n m : StronglySorted text_less m ->
  match map_insert n m with Some m' => StronglySorted text_less m' /\ (forall k, In k m' <-> k = n \/ In k m) /\ ~ In n m | None => In n m end.
Proof.
  induction m as [|k m IH]; intros Hs; cbn [map_insert].
  - split; [repeat constructor|]. split; [intros x; cbn; intuition (subst; auto)|auto].
  - apply StronglySorted_inv in Hs. destruct Hs as [Hs Hk]. destruct (text_ltb n k) eqn:E1.
    + assert (Hn : Forall (text_less n) (k :: m)).
      { constructor; [exact E1|]. eapply Forall_impl; [|exact Hk]. intros x Hx. unfold text_less in *. eapply text_ltb_trans; eauto. }
      split; [constructor; [constructor; auto|exact Hn]|]. split; [intros x; cbn; intuition (subst; auto)|]. intros Hi. rewrite Forall_forall in Hn. specialize (Hn n Hi). unfold text_less in Hn. now rewrite text_ltb_irrefl in Hn.
    + destruct (text_ltb k n) eqn:E2.
      * specialize (IH Hs). destruct (map_insert n m) as [m'|]; [|now right]. destruct IH as (I1 & I2 & I3). split; [constructor; [exact I1|]|].
        -- apply Forall_forall. intros x Hx. apply I2 in Hx. destruct Hx as [->|Hx]; [exact E2|]. rewrite Forall_forall in Hk. auto.
        -- split; [intros x; cbn; rewrite I2; intuition|]. intros [->|X]; [|contradiction]. now rewrite text_ltb_irrefl in E2.
      * left. symmetry. now apply text_ltb_total.
Qed.
Lemma test_map_ok chain : forall m, StronglySorted text_less m ->
  match test_map chain m with
  | Ok m' => StronglySorted text_less m' /\ (forall k, In k m' <-> In k chain \/ In k m) /\ NoDup chain /\ (forall k, In k chain -> ~ In k m)
  | Throw e => e = RuntimeError /\ (~ NoDup chain \/ exists k, In k chain /\ In k m)
  | UB => False
  end.
Proof.
  induction chain as [|n chain IH]; intros m Hs; cbn [test_map].
  - split; auto. split; [intros k; cbn; tauto|]. split; [constructor|intros k []].
  - pose proof (map_insert_ok n m Hs) as K. destruct (map_insert n m) as [m1|].
    + destruct K as (K1 & K2 & K3). specialize (IH m1 K1). destruct (test_map chain m1) as [m'|e|]; auto.
      * destruct IH as (I1 & I2 & I3 & I4). split; auto. split; [intros k; rewrite I2, K2; cbn; intuition|]. split.
        -- constructor; auto. intros X. apply (I4 n X), K2. now left.
        -- intros k [<-|X]; [exact K3|]. intros Y. apply (I4 k X), K2. now right.
      * destruct IH as [-> IH]. split; auto. destruct IH as [IH|(k & A & B)]; [left; intros X; inversion X; contradiction|]. apply K2 in B. destruct B as [->|B]; [|right; exists k; split; [now right|auto]].
        left. intros X. inversion X. contradiction.
    + split; auto. right. exists n. split; [now left|auto].
Qed.

(** The names of --run are a set. *)
Definition name_set (l : list atom) : Prop := exists ts, l = map Txt ts /\ StronglySorted text_less ts.
Lemma set_insert_names t l : name_set l -> name_set (set_insert (Txt t) l).
Proof.
  intros (ts & -> & Hs). enough (exists ts', set_insert (Txt t) (map Txt ts) = map Txt ts' /\ StronglySorted text_less ts' /\ forall x, In x ts' -> x = t \/ In x ts) as (ts' & ? & ? & _) by (exists ts'; auto).
  induction ts as [|k ts IH]; cbn [map set_insert].
  - exists [t]. split; [reflexivity|]. split; [repeat constructor|]. intros x [<-|[]]. now left.
  - apply StronglySorted_inv in Hs. destruct Hs as [Hs Hk]. cbn [atom_ltb]. destruct (text_ltb t k) eqn:E1.
    + exists (t :: k :: ts). split; [reflexivity|]. split; [|intros x [<-|X]; auto]. constructor; [now constructor|]. constructor; [exact E1|]. eapply Forall_impl; [|exact Hk]. intros x Hx. unfold text_less in *. eapply text_ltb_trans; eauto.
    + destruct (text_ltb k t) eqn:E2.
      * destruct (IH Hs) as (ts' & -> & S' & I'). exists (k :: ts'). split; [reflexivity|]. split; [constructor; auto; apply Forall_forall; intros x Hx; apply I' in Hx; destruct Hx as [->|Hx]; [exact E2|rewrite Forall_forall in Hk; auto]|].
        intros x [<-|X]; [right; now left|]. apply I' in X. destruct X; [now left|right; now right].
      * exists (k :: ts). split; [reflexivity|]. split; [now constructor|auto].
Qed.
Lemma set_attribute_sorted options n : StronglySorted text_less (set_attribute options n).
Proof.
  unfold set_attribute, attribute. destruct (try_find options n) as [[s|] m]; cbn [fst from_string]; [|constructor].
  enough (name_set (fold_left (fun l a => set_insert a l) (extract_all EText (length s) s) [])) as (ts & -> & Hs) by (now rewrite map_map, map_id).
  assert (N0 : name_set []) by (exists []; split; [reflexivity|constructor]). revert N0. generalize (@nil atom). generalize s at 2. generalize (length s). intros fuel. induction fuel as [|fuel IH]; intros x acc N; cbn [extract_all fold_left]; auto.
  cbn [extract]. destruct (take_word (skip_space x)) as [[|c w] r]; cbn [fold_left]; auto. apply IH. now apply set_insert_names.
Qed.

(** ** The runs *)
Section Run.
Context (beh : nat -> text -> text * verdict) (matches : text -> text -> option bool) (options : list opt).
Lemma upto_app a : forall k b, upto beh k (a ++ b) = let (c, v) := upto beh k a in match v with Passed => let (c', v') := upto beh (k + length a) b in (a ++ c', v') | _ => (c, v) end.
Proof.
  induction a as [|n a IH]; intros k b; cbn [app upto length].
  - rewrite Nat.add_0_r. now destruct (upto beh k b).
  - rewrite IH. destruct (snd (beh k n)); auto. destruct (upto beh (S k) a) as [c v]. destruct v; auto. replace (k + S (length a))%nat with (S k + length a)%nat by lia. now destruct (upto beh (S k + length a) b).
Qed.
Lemma upto_passed a : forall k c, upto beh k a = (c, Passed) -> c = a.
Proof.
  induction a as [|n a IH]; intros k c; cbn [upto]; [congruence|]. destruct (snd (beh k n)) eqn:E; try discriminate. destruct (upto beh (S k) a) as [c' v] eqn:E'. intros X. injection X as <- ->. f_equal. eauto.
Qed.
Lemma upto_nonempty a k c v : upto beh k a = (c, v) -> v <> Passed -> c <> [].
Proof. destruct a as [|n a]; cbn [upto]; [congruence|]. destruct (snd (beh k n)); [destruct (upto beh (S k) a)| |]; intros X; injection X as <- <-; congruence. Qed.
Lemma written_app a : forall k b, written beh k (a ++ b) = written beh k a ++ written beh (k + length a) b.
Proof. induction a as [|n a IH]; intros k b; cbn [app written length]; [now rewrite Nat.add_0_r|]. rewrite IH. now replace (S k + length a)%nat with (k + S (length a))%nat by lia. Qed.
Lemma written_nil k c : written beh k c = [] -> c = []. Proof. destruct c; [auto|discriminate]. Qed.
Lemma last_app {A} (a b : list A) d : b <> [] -> List.last (a ++ b) d = List.last b d.
Proof. intros H. induction a as [|x a IH]; cbn; auto. destruct (a ++ b) eqn:E; [apply app_eq_nil in E; tauto|auto]. Qed.

(** How a state follows another, if [plan] is to be run. *)
Definition after (md : mode) (plan : list text) (s s' : state) (v : verdict) : Prop :=
  let (c, w) := upto beh (calls s) plan in
  w = v /\ calls s' = (calls s + length c)%nat /\ called (log s') = called (log s) ++ c /\
  shown (log s') = shown (log s) ++ (match md with All => written beh (calls s) c | _ => [] end) /\
  last s' = (match v, md with Passed, _ => [] | _, OnFailure => last_written beh (calls s) c | _, _ => [] end) /\
  verdicts (log s') = verdicts (log s) /\ reported (log s') = reported (log s).
Lemma after_nil md s : last s = [] -> after md [] s s Passed.
Proof. intros H. unfold after. cbn. rewrite Nat.add_0_r, H. destruct md; cbn; rewrite !app_nil_r; auto 10. Qed.
Lemma after_app md p q s s1 s2 v : after md p s s1 Passed -> after md q s1 s2 v -> after md (p ++ q) s s2 v.
Proof.
  unfold after. rewrite upto_app. destruct (upto beh (calls s) p) as [c w] eqn:E. intros (-> & A1 & A2 & A3 & A4 & A5 & A6). pose proof (upto_passed _ _ _ E). subst c. rewrite A1.
  destruct (upto beh (calls s + length p) q) as [c' w'] eqn:E'. intros (-> & B1 & B2 & B3 & B4 & B5 & B6). rewrite app_length, written_app, B1, B2, B3, B4, B5, B6, A2, A3, A5, A6. repeat split; try lia.
  - now rewrite app_assoc.
  - destruct md; rewrite ?app_nil_r, ?app_assoc; auto.
  - destruct v; auto; destruct md; auto; unfold last_written; rewrite written_app, last_app; auto; intros X; apply written_nil in X; revert X; eapply upto_nonempty; eauto; discriminate.
Qed.
Lemma after_app_bad md p q s s1 v : after md p s s1 v -> v <> Passed -> after md (p ++ q) s s1 v.
Proof. unfold after. rewrite upto_app. destruct (upto beh (calls s) p) as [c w]. intros (-> & A) N. destruct v; [congruence| |]; auto. Qed.
Lemma flat_map_last {A} (f : event -> list A) l e : flat_map f (l ++ [e]) = flat_map f l ++ f e.
Proof. rewrite flat_map_app. cbn. now rewrite app_nil_r. Qed.
Lemma one_run_ok md n s : last s = [] -> let (s', v) := one_run beh md n s in after md [n] s s' v.
Proof.
  intros Hl. unfold one_run, after. cbn [upto]. destruct (beh (calls s) n) as [out v] eqn:E. cbn [snd].
  destruct v, md; cbn [snd fst upto calls log last say set_last app]; unfold called, shown, verdicts, reported, last_written; rewrite ?flat_map_last, ?app_nil_r; cbn [written List.last length]; rewrite ?E, ?Hl, ?app_nil_r; cbn [fst app]; repeat split; auto; lia.
Qed.
Lemma after_last md p s s' : after md p s s' Passed -> last s' = [].
Proof. unfold after. destruct (upto beh (calls s) p) as [c w]. now intros (_ & _ & _ & _ & -> & _). Qed.
Lemma repeat_run_ok md n k : forall s, last s = [] -> let (s', v) := repeat_run beh k md n s in after md (repeat n k) s s' v.
Proof.
  induction k as [|k IH]; intros s Hl; cbn [repeat_run repeat]; [now apply after_nil|]. pose proof (one_run_ok md n s Hl) as K. destruct (one_run beh md n s) as [s1 v]. change (n :: repeat n k) with ([n] ++ repeat n k).
  destruct v; try (apply after_app_bad; [exact K|discriminate]). specialize (IH s1 (after_last _ _ _ _ K)). destruct (repeat_run beh k md n s1) as [s2 v]. eapply after_app; eauto.
Qed.
Lemma internal_run_ok md n s : last s = [] -> output_mode options = Some md -> let (s', v) := internal_run beh options n s in after md (repeat n (loop_count options)) s s' v.
Proof.
  intros Hl Hm. unfold internal_run. rewrite Hm. pose proof (repeat_run_ok md n (loop_count options) (say (Name n) s) Hl) as K. destruct (repeat_run beh (loop_count options) md n (say (Name n) s)) as [s' v].
  unfold after in *. cbn [calls say] in K. destruct (upto beh (calls s) (repeat n (loop_count options))) as [c w]. cbn [log say] in K. unfold called, shown, verdicts, reported in *. rewrite !flat_map_last, !app_nil_r in K. exact K.
Qed.
Definition accepts (f n : text) : Prop := f = [] \/ matches f n = Some true.
Definition regular (f : text) : Prop := forall n, f <> [] -> matches f n <> None.
Lemma filter_fun_ok f n : regular f -> match filter_fun matches f n with Some true => accepts f n | Some false => ~ accepts f n | None => False end.
Proof.
  intros R. unfold filter_fun, accepts. destruct f as [|c f]; [now left|]. pose proof (R n ltac:(discriminate)) as N. destruct (matches (c :: f) n) as [[|]|]; auto. intros [X|X]; discriminate.
Qed.
Definition plan_of (l : list text) : list text := flat_map (fun n => repeat n (loop_count options)) l.
(** The accepted names, in order. *)
Lemma select f m : regular f -> StronglySorted text_less m -> exists sel, StronglySorted text_less sel /\ (forall n, In n sel <-> In n m /\ accepts f n) /\
  get_count matches f m = Some (length sel) /\
  (forall md s, last s = [] -> output_mode options = Some md -> let (s', v) := run_all beh matches options f m s in after md (plan_of sel) s s' v) /\
  (forall s, let (s', ok) := print_names matches f m s in ok = true /\ listed (log s') = listed (log s) ++ sel /\ called (log s') = called (log s)).
Proof.
  intros R. induction m as [|n m IH]; intros Hs.
  - exists []. split; [constructor|]. split; [cbn; tauto|]. split; [reflexivity|]. split; [intros; now apply after_nil|]. intros s. cbn. now rewrite app_nil_r.
  - apply StronglySorted_inv in Hs. destruct Hs as [Hs Hn]. destruct (IH Hs) as (sel & S1 & S2 & S3 & S4 & S5). cbn [get_count run_all print_names]. pose proof (filter_fun_ok f n R) as F. rewrite S3.
    destruct (filter_fun matches f n) as [[|]|]; [| |contradiction].
    + exists (n :: sel). split; [constructor; auto; apply Forall_forall; intros x Hx; apply S2 in Hx; rewrite Forall_forall in Hn; now apply Hn|].
      split; [intros k; cbn; rewrite S2; split; [intros [<-|]|intros [[<-|] ]]; intuition|]. split; [reflexivity|]. split.
      * intros md s Hl Hm. pose proof (internal_run_ok md n s Hl Hm) as K. destruct (internal_run beh options n s) as [s1 v]. cbn [plan_of flat_map]. fold (plan_of sel).
        destruct v; try (apply after_app_bad; [exact K|discriminate]). specialize (S4 md s1 (after_last _ _ _ _ K) Hm). destruct (run_all beh matches options f m s1). eapply after_app; eauto.
      * intros s. specialize (S5 (say (Listed n) s)). destruct (print_names matches f m (say (Listed n) s)) as [s' ok]. unfold listed, called in *. cbn [log say] in S5. rewrite !flat_map_last, app_nil_r, <- app_assoc in S5. exact S5.
    + exists sel. split; auto. split; [intros k; cbn; rewrite S2; split; [intuition|intros [[<-|] ]; [contradiction|auto]]|]. auto.
Qed.
Lemma run_each_ok md m ns : forall s, last s = [] -> output_mode options = Some md -> (forall n, In n ns -> In n m) ->
  let (s', v) := run_each beh options m ns s in after md (plan_of ns) s s' v.
Proof.
  induction ns as [|n ns IH]; intros s Hl Hm Hi; cbn [run_each]; [now apply after_nil|]. unfold run_named.
  replace (existsb (text_eqb n) m) with true by (symmetry; apply existsb_exists; exists n; split; [apply Hi; now left|apply text_eqb_refl]).
  pose proof (internal_run_ok md n s Hl Hm) as K. destruct (internal_run beh options n s) as [s1 v]. cbn [plan_of flat_map]. fold (plan_of ns).
  destruct v; try (apply after_app_bad; [exact K|discriminate]). specialize (IH s1 (after_last _ _ _ _ K) Hm ltac:(intros; apply Hi; now right)). destruct (run_each beh options m ns s1). eapply after_app; eauto.
Qed.
Lemma run_each_unknown m ns n : In n ns -> ~ In n m -> forall s, snd (run_each beh options m ns s) <> Passed.
Proof.
  intros Hi Hm. induction ns as [|k ns IH]; [destruct Hi|]. intros s. cbn [run_each]. unfold run_named at 1. destruct (existsb (text_eqb k) m) eqn:E.
  - destruct Hi as [->|Hi]; [apply existsb_exists in E; destruct E as (x & Hx & Ex); apply text_eqb_eq in Ex; subst; contradiction|]. destruct (internal_run beh options k s) as [s1 [| |]]; cbn; try discriminate. now apply IH.
  - discriminate.
Qed.

(** ** C61 *)
(** What follows from the verdict of the runs. *)
Definition announced (md : mode) (c : list text) (v : verdict) (l : list event) (e : ending) : Prop :=
  called l = c /\ shown l = (match md with All => written beh 0 c | _ => [] end) /\
  match v with
  | Passed => verdicts l = [true] /\ reported l = []
  | Failed => verdicts l = [false] /\ reported l = [match md with OnFailure => last_written beh 0 c | _ => [] end]
  | Crashed => verdicts l = [] /\ reported l = [] /\ e = Terminates
  end.
Definition start : state := {| log := []; calls := 0; last := [] |}.
(** The tests that the filter accepts are called in the order of their names, each as many
    times as told, up to the first that fails; the tests are said to have passed if all of
    these have, and otherwise the output of the one that failed is shown. *)
Theorem test_run_filtered chain f md : NoDup chain -> number_attribute options FBool s_list 0 = 0%Z -> set_attribute options s_run = [] ->
  text_attribute options s_filter s_tests = f -> regular f -> output_mode options = Some md ->
  exists sel, StronglySorted text_less sel /\ (forall n, In n sel <-> In n chain /\ accepts f n) /\
  let (c, v) := upto beh 0 (flat_map (fun n => repeat n (loop_count options)) sel) in
  let '(s, e, _) := console_run beh matches options chain start in announced md c v (log s) e.
Proof.
  intros Hd Hlist Hrun Hf R Hm. pose proof (test_map_ok chain [] ltac:(constructor)) as K. unfold console_run. destruct (test_map chain []) as [m|x|]; [|destruct K as [_ [X|(? & _ & [])]]; contradiction|contradiction].
  destruct K as (K1 & K2 & _ & _). destruct (select f m R K1) as (sel & S1 & S2 & S3 & S4 & _). exists sel. split; auto. split; [intros n; rewrite S2, K2; cbn; tauto|].
  rewrite Hlist, Hrun, Hf, S3. cbn [negb Z.eqb]. specialize (S4 md start eq_refl Hm). destruct (run_all beh matches options f m start) as [s1 v]. unfold after in S4. cbn [calls start] in S4. fold (plan_of sel).
  destruct (upto beh 0 (plan_of sel)) as [c w]. destruct S4 as (-> & A1 & A2 & A3 & A4 & A5 & A6). cbn in A2, A3, A5, A6. destruct v; unfold announced, called, shown, verdicts, reported in *; cbn [log say]; rewrite ?flat_map_last, ?app_nil_r; rewrite ?A2, ?A3, ?A4, ?A5, ?A6; auto 10.
Qed.
(** The same for the tests that are named by --run; *)
Theorem test_run_named chain md run : NoDup chain -> number_attribute options FBool s_list 0 = 0%Z -> set_attribute options s_run = run -> run <> [] ->
  (forall n, In n run -> In n chain) -> output_mode options = Some md ->
  StronglySorted text_less run /\
  let (c, v) := upto beh 0 (flat_map (fun n => repeat n (loop_count options)) run) in
  let '(s, e, _) := console_run beh matches options chain start in announced md c v (log s) e.
Proof.
  intros Hd Hlist Hrun Hne Hi Hm. split; [rewrite <- Hrun; apply set_attribute_sorted|]. pose proof (test_map_ok chain [] ltac:(constructor)) as K. unfold console_run. destruct (test_map chain []) as [m|x|]; [|destruct K as [_ [X|(? & _ & [])]]; contradiction|contradiction].
  destruct K as (K1 & K2 & _ & _). rewrite Hlist, Hrun. cbn [negb Z.eqb].
  pose proof (run_each_ok md m run start eq_refl Hm ltac:(intros n Hn; apply K2; left; auto)) as S4. destruct run as [|n0 run]; [congruence|]. destruct (run_each beh options m (n0 :: run) start) as [s1 v]. unfold after in S4. cbn [calls start] in S4. fold (plan_of (n0 :: run)).
  destruct (upto beh 0 (plan_of (n0 :: run))) as [c w]. destruct S4 as (-> & A1 & A2 & A3 & A4 & A5 & A6). cbn in A2, A3, A5, A6. destruct v; unfold announced, called, shown, verdicts, reported in *; cbn [log say]; rewrite ?flat_map_last, ?app_nil_r; rewrite ?A2, ?A3, ?A4, ?A5, ?A6; auto 10.
Qed.
(** a name that no test has does not pass. *)
Theorem test_run_unknown chain n : In n (set_attribute options s_run) -> ~ In n chain -> number_attribute options FBool s_list 0 = 0%Z ->
  let '(s, _, _) := console_run beh matches options chain start in ~ In true (verdicts (log s)).
Proof.
  intros Hn Hc Hlist. pose proof (test_map_ok chain [] ltac:(constructor)) as K. unfold console_run. destruct (test_map chain []) as [m|x|]; [|cbn; tauto|contradiction].
  destruct K as (K1 & K2 & _ & _). rewrite Hlist. cbn [negb Z.eqb]. destruct (set_attribute options s_run) as [|n0 run]; [destruct Hn|].
  assert (U : ~ In n m) by (rewrite K2; cbn; tauto). pose proof (run_each_unknown m _ n Hn U start) as X.
  assert (V : forall ns s, verdicts (log (fst (run_each beh options m ns s))) = verdicts (log s)).
  { assert (V1 : forall md k s, verdicts (log (fst (one_run beh md k s))) = verdicts (log s)).
    { intros md k s. unfold one_run. destruct (beh (calls s) k) as [out [| |]], md; cbn [fst log say set_last]; unfold verdicts; rewrite ?flat_map_last, ?app_nil_r; auto. }
    assert (V2 : forall j md k s, verdicts (log (fst (repeat_run beh j md k s))) = verdicts (log s)).
    { intros j md k. induction j as [|j IH]; intros s; cbn; auto. specialize (V1 md k s). destruct (one_run beh md k s) as [s1 [| |]]; cbn [fst] in *; congruence. }
    intros ns. induction ns as [|k ns IH]; intros s; cbn; auto. unfold run_named. destruct (existsb (text_eqb k) m); [|reflexivity]. unfold internal_run.
    destruct (output_mode options) as [md|]; [|unfold verdicts; cbn [fst log say]; now rewrite flat_map_last, app_nil_r].
    specialize (V2 (loop_count options) md k (say (Name k) s)). destruct (repeat_run beh (loop_count options) md k (say (Name k) s)) as [s1 [| |]]; cbn [fst] in *; rewrite ?IH, V2; unfold verdicts; cbn [log say]; now rewrite flat_map_last, app_nil_r. }
  specialize (V (n0 :: run) start). destruct (run_each beh options m (n0 :: run) start) as [s1 v]. cbn [fst snd] in *. destruct v; [congruence| |]; unfold verdicts in *; cbn [log say]; rewrite ?flat_map_last, V; cbn; intuition discriminate.
Qed.
(** --list prints the names of the tests that the filter accepts, in order, and calls none. *)
Theorem test_list chain f : NoDup chain -> number_attribute options FBool s_list 0 <> 0%Z -> text_attribute options s_filter [] = f -> regular f ->
  let '(s, e, _) := console_run beh matches options chain start in
  StronglySorted text_less (listed (log s)) /\ (forall n, In n (listed (log s)) <-> In n chain /\ accepts f n) /\ called (log s) = [] /\
  List.last (log s) ErrorLine = Total (length (listed (log s))) /\ e = Returns 0.
Proof.
  intros Hd Hlist Hf R. pose proof (test_map_ok chain [] ltac:(constructor)) as K. unfold console_run. destruct (test_map chain []) as [m|x|]; [|destruct K as [_ [X|(? & _ & [])]]; contradiction|contradiction].
  destruct K as (K1 & K2 & _ & _). destruct (select f m R K1) as (sel & S1 & S2 & S3 & _ & S5). rewrite Hf. replace (number_attribute options FBool s_list 0 =? 0)%Z with false by lia. cbn [negb]. specialize (S5 start).
  destruct (print_names matches f m start) as [s1 ok]. destruct S5 as (-> & L & C). rewrite S3. cbn in L, C. unfold listed, called in *. cbn [log say]. rewrite !flat_map_last, !app_nil_r, L, C. split; auto. split; [intros n; rewrite S2, K2; cbn; tauto|]. split; auto. split; auto. apply last_app. discriminate.
Qed.
(** Two tests with the same name are refused, and no test is called. *)
Theorem test_duplicates chain : ~ NoDup chain -> let '(s, e, _) := console_run beh matches options chain start in log s = [ErrorLine] /\ e = Returns 2.
Proof.
  intros Hd. pose proof (test_map_ok chain [] ltac:(constructor)) as K. unfold console_run. destruct (test_map chain []) as [m|x|]; [destruct K as (_ & _ & X & _); contradiction| |contradiction]. auto.
Qed.
End Run.

(** ** The command line *)
Definition loop_is (o : list (text * option text)) (k : Z) : Prop :=
  (~ In (str "loop") (map fst o) /\ k = 1%Z) \/ exists z, In (str "loop", Some (put_int z)) o /\ (0 <= z < 2 ^ 64)%Z /\ k = Z.max 1 z.
Definition filter_is (o : list (text * option text)) (f : text) : Prop :=
  (~ In (str "filter") (map fst o) /\ f = str ".*_Test") \/ In (str "filter", Some f) o \/ (In (str "filter", None) o /\ f = []).
Definition output_is (o : list (text * option text)) (md : mode) : Prop :=
  (~ In (str "output") (map fst o) /\ md = OnFailure) \/ In (str "output", Some (match md with All => str "all" | OnFailure => str "failed" | Null => str "null" end)) o.
Lemma loop_ok o m k : clear_options o -> parse (typed o) = Ok m -> loop_is o k -> loop_count m = Z.to_nat k.
Proof.
  intros Ho Hp H. unfold loop_count, number_attribute. change s_loop with (str "loop"). destruct H as [[H ->]|(z & Hi & Hz & ->)].
  - rewrite (attribute_default (AScalar FULong) o m) by auto. reflexivity.
  - rewrite (attribute_passed_partial (AScalar FULong) (One (Num z)) o m) by (auto; try (cbn; lia); exact Logic.I). destruct (z =? 0)%Z eqn:E; lia.
Qed.
Lemma text_ok o m n d f : clear_options o -> parse (typed o) = Ok m -> (~ In n (map fst o) /\ f = d) \/ In (n, Some f) o \/ (In (n, None) o /\ f = []) -> text_attribute m n d = f.
Proof.
  intros Ho Hp H. unfold text_attribute. destruct H as [[H ->]|H].
  - now rewrite (attribute_default AText o m) by auto.
  - unfold attribute. assert (K : fst (try_find m n) = Some f) by (rewrite parse_stored in Hp by auto; injection Hp as <-; apply stored_find; [auto|unfold given; intuition]). destruct (try_find m n) as [x m1]. cbn [fst] in K. subst x. reflexivity.
Qed.
Lemma output_ok o m md : clear_options o -> parse (typed o) = Ok m -> output_is o md -> output_mode m = Some md.
Proof.
  intros Ho Hp H. unfold output_mode. destruct H as [[H ->]|H].
  - rewrite (text_ok o m s_output s_failed s_failed); auto.
  - rewrite (text_ok o m s_output s_failed _ Ho Hp (or_intror (or_introl H))). destruct md; reflexivity.
Qed.
(** So it is with the options as they are typed. *)
Theorem test_run_command beh matches chain o f md k : NoDup chain -> clear_options o -> ~ In (str "list") (map fst o) -> ~ In (str "run") (map fst o) ->
  filter_is o f -> regular matches f -> output_is o md -> loop_is o k ->
  exists sel, StronglySorted text_less sel /\ (forall n, In n sel <-> In n chain /\ accepts matches f n) /\
  let (c, v) := upto beh 0 (flat_map (fun n => repeat n (Z.to_nat k)) sel) in
  let (l, e) := main beh matches chain (typed o) in announced beh md c v l e.
Proof.
  intros Hd Ho Hl Hr Hf R Hm Hk. unfold main. pose proof (parse_stored o Ho) as P. rewrite P. rewrite <- (loop_ok o _ k Ho P Hk).
  assert (L : number_attribute (map stored o) FBool s_list 0 = 0%Z) by (unfold number_attribute; now rewrite (attribute_default (AScalar FBool) o _ _ _ Ho P Hl)).
  assert (S : set_attribute (map stored o) s_run = []) by (unfold set_attribute; now rewrite (attribute_default (ASet EText) o _ _ _ Ho P Hr)).
  destruct (test_run_filtered beh matches (map stored o) chain f md Hd L S (text_ok o _ _ _ _ Ho P Hf) R (output_ok o _ md Ho P Hm)) as (sel & S1 & S2 & S3). exists sel. split; auto. split; auto.
  destruct (upto beh 0 _) as [c v]. unfold start in S3. destruct (console_run _ _ _ _ _) as [[s e] ch]. exact S3.
Qed.

(** ** Concrete cases *)
Definition demo_chain : list text := [str "C_Test"; str "A_Test"; str "X_Example"; str "B_Test"].
(** .*_Test; other texts are not regular expressions *)
Definition demo_matches (r n : text) : option bool := if text_eqb r s_tests then Some (text_eqb (skipn (length n - 5) n) (str "_Test")) else None.
(** The second call of B fails. *)
Definition demo_beh (k : nat) (n : text) : text * verdict := (n ++ [Z.of_nat k], if text_eqb n (str "B_Test") && Nat.eqb k 3 then Failed else Passed).
(** ** Where the code does otherwise *)
(** Violated: the exit code of the process is 1 if the tests pass, and 0, which means
    success, if they fail or the command line is wrong. *)
Theorem test_exit_code_refuted : exists beh matches chain args l1 l2 bad, verdicts l1 = [true] /\ main beh matches chain args = (l1, Returns 1) /\
  (exists beh', verdicts l2 = [false] /\ main beh' matches chain args = (l2, Returns 0)) /\ main beh matches chain bad = ([ErrorLine], Returns 0).
Proof.
  exists (fun _ n => (n, Passed)), demo_matches, demo_chain, [str "--run"; str "B_Test"]. eexists _, _, [str "oops"]. split; [|split; [vm_compute; reflexivity|]]; [reflexivity|].
  split; [|reflexivity]. exists (fun _ n => (n, Failed)). split; [|vm_compute; reflexivity]. reflexivity.
Qed.
(** Violated: a test that throws anything but a TestException is not reported; the process is
    terminated. *)
Theorem test_crash_refuted : exists beh matches chain args l, main beh matches chain args = (l, Terminates) /\ called l = [str "A_Test"; str "B_Test"] /\ verdicts l = [] /\ reported l = [].
Proof. exists (fun k n => (n, if Nat.eqb k 1 then Crashed else Passed)), demo_matches, demo_chain, []. eexists. split; [vm_compute; reflexivity|]. auto. Qed.
(** Violated: the first run removes the tests, so that the second one passes without calling
    any. *)
Theorem test_run_again_refuted : exists beh matches chain s e chain', NoDup chain /\ console_run beh matches [] chain start = (s, e, chain') /\ verdicts (log s) = [false] /\
  exists s' e' chain'', console_run beh matches [] chain' start = (s', e', chain'') /\ verdicts (log s') = [true] /\ called (log s') = [].
Proof.
  exists (fun _ n => (n, Failed)), demo_matches, demo_chain. eexists _, _, _. split; [repeat constructor; cbn; intuition discriminate|]. split; [vm_compute; reflexivity|]. split; [reflexivity|].
  eexists _, _, _. split; [vm_compute; reflexivity|]. auto.
Qed.
Example test_run_demo : main demo_beh demo_matches demo_chain [str "--loop"; str "2"] =
  ([Name (str "A_Test"); Called (str "A_Test"); PassedLine; Called (str "A_Test"); PassedLine; Name (str "B_Test"); Called (str "B_Test"); PassedLine; Called (str "B_Test"); LastOutput (str "B_Test" ++ [3%Z]); Verdict false], Returns 0) /\
  main demo_beh demo_matches demo_chain [str "--run"; str "X_Example B_Test"; str "--output"; str "all"] =
  ([Name (str "B_Test"); Called (str "B_Test"); Shown (str "B_Test" ++ [0%Z]); PassedLine; Name (str "X_Example"); Called (str "X_Example"); Shown (str "X_Example" ++ [1%Z]); PassedLine; Verdict true], Returns 1) /\
  main demo_beh demo_matches demo_chain [str "--list"] = ([Listed (str "A_Test"); Listed (str "B_Test"); Listed (str "C_Test"); Listed (str "X_Example"); Total 4], Returns 0).
Proof. vm_compute. auto. Qed.
