(** C74: the singletons. *)
From Verif Require Import Common SingletonModel.
From Coq Require Import Lia PeanoNat.

(** ** Specification: the life of a singleton, seen through the pointers *)
Inductive life :=
| Never                              (* no instance was made *)
| Alive (i n : nat)                  (* instance [i] has [n] + 1 owners *)
| Dead (i : nat).                    (* instance [i] was the last one and is destroyed *)
Definition next (l : life) : nat := match l with Never => 0 | Alive i _ => S i | Dead i => S i end.
Definition create (l : life) (o : outcome) : answer * life :=
  match o with
  | Makes => (Pointer (Some (next l)), Alive (next l) 0)
  | Throws => (Exception, l)
  | MakesNull => (Pointer None, l)
  end.
Definition spec_call (k : kind) (l : life) (o : outcome) : answer * life :=
  match l, k with
  | Alive i n, _ => (Pointer (Some i), Alive i (S n))
  | Dead _, Shared => (Pointer None, l)
  | Dead _, Ondemand | Never, _ => create l o
  end.
Definition spec_step (k : kind) (l : life) (u : use) : list answer * life :=
  match u, l with
  | Call o, _ => let (a, l') := spec_call k l o in ([a], l')
  | Copy j, Alive i n => ([], if Nat.eqb i j then Alive i (S n) else l)
  | Release j, Alive i n => ([], if Nat.eqb i j then match n with O => Dead i | S n' => Alive i n' end else l)
  | _, _ => ([], l)
  end.
Fixpoint spec_run (k : kind) (l : life) (us : list use) : list answer * life :=
  match us with
  | [] => ([], l)
  | u :: us' => let (a, l1) := spec_step k l u in let (b, l2) := spec_run k l1 us' in (a ++ b, l2)
  end.
(** The owners of the instances in a life *)
Definition owners_in (l : life) (i : nat) : nat := match l with Alive j n => if Nat.eqb i j then S n else 0 | _ => 0 end.
(** The instances that are alive *)
Definition alive (s : state) (i : nat) : Prop := 0 < owners s i.

(** ** The functions live such a life *)
Definition matches (l : life) (s : state) : Prop :=
  made s = next l /\ (forall i, owners s i = owners_in l i) /\ (forall t, entered s t = false) /\
  match l with
  | Never => observed s = None
  | Alive i _ => observed s = Some i
  | Dead i => observed s = Some i \/ observed s = None
  end.
Definition shared_dead (k : kind) (l : life) (s : state) : Prop := match k, l with Shared, Dead i => observed s = Some i | _, _ => True end.

Ltac eqbs := repeat match goal with |- context [Nat.eqb ?a ?b] => destruct (Nat.eqb_spec a b); subst; cbn [owners_in] in * | H : context [Nat.eqb ?a ?b] |- _ => destruct (Nat.eqb_spec a b); subst end.

Lemma lock_live l s : matches l s -> lock s = match l with Alive i _ => Some i | _ => None end.
Proof.
  intros (A & B & C & D). unfold lock. destruct l as [|i n|i].
  - rewrite D. reflexivity.
  - rewrite D, B. cbn. rewrite Nat.eqb_refl. reflexivity.
  - destruct D as [-> | ->]; [|reflexivity]. rewrite B. reflexivity.
Qed.
Lemma own_matches i n s : matches (Alive i n) s -> matches (Alive i (S n)) (own s i).
Proof. intros (A & B & C & D). split; [exact A|]. split; [|split; [exact C|exact D]]. intros j. cbn. rewrite B. cbn. eqbs; auto. Qed.
Lemma entered_matches l s t : matches l s -> matches l (enter (enter s t true) t false).
Proof. intros (A & B & C & D). split; [exact A|]. split; [exact B|]. split; [|exact D]. intros u. cbn. rewrite C. eqbs; auto. Qed.

Lemma end_matches k l s o : matches l s -> shared_dead k l s -> (forall i n, l <> Alive i n) -> (k = Shared -> l = Never) ->
  fst (call_end 0 o (enter s 0 true)) = fst (create l o) /\ matches (snd (create l o)) (snd (call_end 0 o (enter s 0 true))) /\ shared_dead k (snd (create l o)) (snd (call_end 0 o (enter s 0 true))).
Proof.
  intros M V N K. pose proof (entered_matches l s 0 M) as M'. unfold call_end. remember (enter (enter s 0 true) 0 false) as s' eqn:Es. destruct M' as (A & B & C & D).
  destruct o; cbn [create fst snd].
  - split; [rewrite A; reflexivity|]. split; [|destruct k; exact Logic.I]. split; [cbn; now rewrite A|]. split; [|split; [exact C|cbn; now rewrite A]].
    intros i. cbn. rewrite A. eqbs; auto. rewrite B. destruct l; cbn; auto. exfalso. eapply N; reflexivity.
  - split; [reflexivity|]. split; [split; [exact A|split; [exact B|split; [exact C|exact D]]]|]. rewrite Es. destruct k, l; cbn; auto.
  - split; [reflexivity|]. split.
    + split; [exact A|]. split; [exact B|]. split; [exact C|]. destruct l; cbn; auto. exfalso. eapply N; reflexivity.
    + destruct k; [rewrite (K eq_refl)|destruct l]; exact Logic.I.
Qed.

Lemma call_spec k l s o : matches l s -> shared_dead k l s ->
  fst (call k 0 o s) = fst (spec_call k l o) /\ matches (snd (spec_call k l o)) (snd (call k 0 o s)) /\ shared_dead k (snd (spec_call k l o)) (snd (call k 0 o s)).
Proof.
  intros M V. unfold call, call_begin. rewrite (lock_live l s M). pose proof M as (A & B & C & D).
  destruct l as [|i n|i].
  - unfold is_uninitialized. rewrite D. replace (match k with Shared => true | Ondemand => true end) with true by (destruct k; reflexivity).
    destruct k; (apply end_matches; [exact M|exact V|discriminate|congruence]).
  - unfold is_uninitialized. rewrite D. destruct k; cbn [fst snd spec_call]; (split; [reflexivity|split; [now apply own_matches|exact Logic.I]]).
  - destruct k.
    + cbn in V. unfold is_uninitialized. rewrite V. cbn [fst snd spec_call]. split; [reflexivity|]. split; [exact M|exact V].
    + apply end_matches; [exact M|exact V|discriminate|discriminate].
Qed.
Lemma step_spec k l s u : matches l s -> shared_dead k l s ->
  fst (step k s u) = fst (spec_step k l u) /\ matches (snd (spec_step k l u)) (snd (step k s u)) /\ shared_dead k (snd (spec_step k l u)) (snd (step k s u)).
Proof.
  intros M V. destruct u as [o|j|j]; cbn [step spec_step].
  - destruct (call_spec k l s o M V) as (E & F & G). destruct (call k 0 o s), (spec_call k l o). cbn [fst snd] in *. subst. auto.
  - pose proof M as (A & B & C & D). unfold copy. rewrite B. destruct l as [|i n|i]; cbn [owners_in Nat.ltb Nat.leb fst snd]; auto.
    eqbs; cbn [Nat.ltb Nat.leb fst snd]; try congruence; (split; [reflexivity|split; [|destruct k; exact Logic.I]]); auto. now apply own_matches.
  - pose proof M as (A & B & C & D). split; [destruct l; reflexivity|].
    destruct l as [|i n|i]; cbn [fst snd].
    + split; [|destruct k; exact Logic.I]. split; [exact A|]. split; [|split; auto]. intros m. cbn. rewrite B. cbn. eqbs; auto.
    + eqbs.
      * split; [|destruct n, k; cbn; auto]. destruct n; (split; [exact A|]); (split; [|split; [exact C|cbn; auto]]); intros m; cbn; rewrite B; cbn; eqbs; auto; congruence.
      * split; [|destruct k; exact Logic.I]. split; [exact A|]. split; [|split; [exact C|exact D]]. intros m. cbn. rewrite B. cbn. eqbs; auto; congruence.
    + split; [|destruct k; cbn in *; auto]. split; [exact A|]. split; [|split; [exact C|exact D]]. intros m. cbn. rewrite B. cbn. eqbs; auto.
Qed.
Lemma initial_matches : matches Never initial. Proof. repeat split. Qed.
Lemma run_spec k us : forall l s, matches l s -> shared_dead k l s ->
  fst (run k s us) = fst (spec_run k l us) /\ matches (snd (spec_run k l us)) (snd (run k s us)) /\ shared_dead k (snd (spec_run k l us)) (snd (run k s us)).
Proof.
  induction us as [|u us IH]; intros l s M V; [split; [reflexivity|auto]|]. cbn [run spec_run].
  destruct (step_spec k l s u M V) as (E & F & G). destruct (step k s u) as [a s1], (spec_step k l u) as [b l1]. cbn [fst snd] in *. subst b.
  destruct (IH l1 s1 F G) as (H & J). destruct (run k s1 us), (spec_run k l1 us). cbn [fst snd] in *. subst. auto.
Qed.

(** The answers of every sequence of calls, copies and releases are those of the life; so are the
    number of the instances made and their owners. *)
Theorem singleton_life k us : fst (run k initial us) = fst (spec_run k Never us) /\ made (snd (run k initial us)) = next (snd (spec_run k Never us)) /\
  forall i, owners (snd (run k initial us)) i = owners_in (snd (spec_run k Never us)) i.
Proof. destruct (run_spec k us Never initial initial_matches ltac:(destruct k; exact Logic.I)) as (A & (B & C & _) & _). auto. Qed.

(** At most one instance is alive at any time. *)
Theorem singleton_single k us i j : let s := snd (run k initial us) in alive s i -> alive s j -> i = j.
Proof.
  cbn zeta. destruct (singleton_life k us) as (_ & _ & O). unfold alive. rewrite !O. destruct (snd (spec_run k Never us)); cbn; try lia. eqbs; lia.
Qed.
(** shared_singleton makes at most one instance in the life of the program. *)
Theorem shared_singleton_once us : made (snd (run Shared initial us)) <= 1.
Proof.
  destruct (singleton_life Shared us) as (_ & -> & _).
  enough (H : forall l, match l with Never => True | Alive i _ | Dead i => i = 0 end -> match snd (spec_run Shared l us) with Never => True | Alive i _ | Dead i => i = 0 end).
  { specialize (H Never Logic.I). destruct (snd (spec_run Shared Never us)); cbn; lia. }
  induction us as [|u us IH]; intros l L; [exact L|]. cbn [spec_run].
  assert (N : match snd (spec_step Shared l u) with Never => True | Alive i _ | Dead i => i = 0 end).
  { destruct u as [o|j|j], l as [|i n|i]; cbn; auto; try (destruct o; cbn; auto); eqbs; auto; destruct n; cbn; auto. }
  destruct (spec_step Shared l u) as [a l1]. specialize (IH l1 N). destruct (spec_run Shared l1 us). exact IH.
Qed.
(** After its instance is destroyed every call returns nullptr. *)
Theorem shared_singleton_gone us vs a : (exists i, made (snd (run Shared initial us)) = S i) -> (forall i, ~ alive (snd (run Shared initial us)) i) ->
  In a (fst (run Shared (snd (run Shared initial us)) vs)) -> a = Pointer None.
Proof.
  intros (i & M) D H. destruct (run_spec Shared us Never initial initial_matches Logic.I) as (_ & W & V).
  enough (exists i, snd (spec_run Shared Never us) = Dead i /\ observed (snd (run Shared initial us)) = Some i) as (j & E & F).
  { rewrite E in W. destruct (run_spec Shared vs _ _ W F) as (R & _). rewrite R in H. clear - H. 
    induction vs as [|v vs IH]; [destruct H|]. cbn [spec_run] in H.
    assert (Q : exists b, spec_step Shared (Dead j) v = (b, Dead j) /\ (forall a, In a b -> a = Pointer None)).
    { destruct v; cbn; eexists; (split; [reflexivity|]); cbn; intuition congruence. }
    destruct Q as (b & Q & Z). rewrite Q in H. destruct (spec_run Shared (Dead j) vs). cbn [fst] in *. apply in_app_or in H. destruct H; auto. }
  destruct (snd (spec_run Shared Never us)) as [|j n|j]; destruct W as (A & B & C & E).
  - rewrite M in A. discriminate.
  - exfalso. apply (D j). unfold alive. rewrite B. cbn. rewrite Nat.eqb_refl. lia.
  - exists j. auto.
Qed.
(** If make_singleton_instance neither throws nor returns nullptr, ondemand_singleton always returns
    a live instance, the living one if there is one and a new one otherwise. *)
Theorem ondemand_singleton_lives us : let s := snd (run Ondemand initial us) in
  exists i s', call Ondemand 0 Makes s = (Pointer (Some i), s') /\ alive s' i /\ ((forall j, alive s j -> i = j) /\ ((forall j, ~ alive s j) -> i = made s)).
Proof.
  cbn zeta. destruct (run_spec Ondemand us Never initial initial_matches Logic.I) as (_ & M & _). destruct (call_spec Ondemand _ _ Makes M Logic.I) as (A & B & _).
  destruct (call Ondemand 0 Makes (snd (run Ondemand initial us))) as [a s']. cbn [fst snd] in *.
  destruct (snd (spec_run Ondemand Never us)) as [|i n|i]; cbn [spec_call create fst snd next] in *; subst a; eexists _, s'; (split; [reflexivity|]);
    destruct B as (_ & B & _); (split; [unfold alive; rewrite B; cbn; rewrite ?Nat.eqb_refl; lia|]); destruct M as (M1 & M2 & _); (split; intros).
  - unfold alive in H. rewrite M2 in H. cbn in H. lia.
  - rewrite M1. reflexivity.
  - unfold alive in H. rewrite M2 in H. cbn in H. eqbs; auto; lia.
  - exfalso. apply (H i). unfold alive. rewrite M2. cbn. rewrite Nat.eqb_refl. lia.
  - unfold alive in H. rewrite M2 in H. cbn in H. lia.
  - rewrite M1. reflexivity.
Qed.
(** After an exception nothing is changed, and the next call tries again. *)
Theorem singleton_throws k us o : let s := snd (run k initial us) in fst (call k 0 Throws s) = Exception ->
  let s' := snd (call k 0 Throws s) in made s' = made s /\ (forall i, owners s' i = owners s i) /\ fst (call k 0 o s') = fst (call k 0 o s).
Proof.
  cbn zeta. intros E.
  destruct (run_spec k us Never initial initial_matches ltac:(destruct k; exact Logic.I)) as (_ & M & V).
  set (s := snd (run k initial us)) in *. set (l := snd (spec_run k Never us)) in *.
  destruct (call_spec k l s Throws M V) as (A & B & C). destruct (call_spec k l s o M V) as (A' & _).
  assert (L : snd (spec_call k l Throws) = l). { rewrite E in A. destruct l, k; cbn in *; try discriminate; reflexivity. }
  rewrite L in B, C. destruct (call_spec k l _ o B C) as (A2 & _). destruct M as (M1 & M2 & _), B as (B1 & B2 & _).
  split; [congruence|]. split; [intros; congruence|congruence].
Qed.

(** ** What does not hold *)
(** With two threads, or if the constructor of the instance calls the function, there are two
    instances at the same time. *)
Theorem singleton_threads_refuted k : exists es, let s := snd (run_events k initial es) in alive s 0 /\ alive s 1.
Proof. exists [Begin 1; Begin 2; End 1 Makes; End 2 Makes]. destruct k; (split; unfold alive; cbn; lia). Qed.
(** After nullptr from make_singleton_instance shared_singleton calls it again. *)
Theorem shared_singleton_null_refuted : exists us, fst (run Shared initial us) = [Pointer None; Pointer (Some 0)] /\ hd_error us = Some (Call MakesNull).
Proof. exists [Call MakesNull; Call Makes]. split; reflexivity. Qed.

(** ** Examples *)
Example singleton_shared_example : fst (run Shared initial [Call Throws; Call Makes; Call Makes; Release 0; Copy 0; Release 0; Call Makes; Release 0; Release 0; Call Makes; Call Throws])
  = [Exception; Pointer (Some 0); Pointer (Some 0); Pointer (Some 0); Pointer None; Pointer None].
Proof. reflexivity. Qed.
Example singleton_ondemand_example : fst (run Ondemand initial [Call Makes; Call Makes; Release 0; Release 0; Call Throws; Call Makes; Call Makes])
  = [Pointer (Some 0); Pointer (Some 0); Exception; Pointer (Some 1); Pointer (Some 1)].
Proof. reflexivity. Qed.
Example singleton_gone_example : made (snd (run Shared initial [Call Makes; Release 0])) = 1 /\ (forall i, ~ alive (snd (run Shared initial [Call Makes; Release 0])) i).
Proof. split; [reflexivity|]. intros i. unfold alive. cbn. destruct i; cbn; lia. Qed.
