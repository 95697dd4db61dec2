(** Invariants of the model of jthread *)
From Coq Require Import ZifyBool ZifyNat.
From Verif Require Import Common JThreadModel.

Ltac proj := cbn [hs nh nth ended asked pcs log h_src h_thr] in *.
Ltac unf := unfold destroy, move_into, request, note, go, set_h, ask, finish, make, none in *; proj.
Ltac split_step H :=
  unfold step in H;
  match type of H with (if ?b then _ else _) = _ => let G := fresh "Lt" in destruct b eqn:G; [apply andb_prop in G; let G1 := fresh "Lt" in let G2 := fresh "Le" in destruct G as (G1 & G2); apply Nat.ltb_lt in G1; apply Bool.negb_true_iff in G2|discriminate H] end;
  let P := fresh "P" in
  match type of H with match pcs ?s ?t with _ => _ end = _ => destruct (pcs s t) eqn:P end;
  match type of H with context [match ?a with AStep => _ | _ => _ end] => destruct a | user_step _ ?a _ = _ => destruct a end; cbn [user_step lib_step] in H; try discriminate H; unfold destroy, move_into, request in H; cbn [h_src h_thr joinable] in H; unfold joinable in H; cbn [h_src h_thr] in H;
  repeat match type of H with
  | None = Some _ => discriminate H
  | Some Terminates = Some (Next _) => discriminate H
  | context [if ?b then _ else _] => let E := fresh "E" in destruct b eqn:E
  | context [match ?b with _ => _ end] => let E := fresh "E" in destruct b eqn:E
  end;
  injection H; clear H; intro H; subst;
  repeat match goal with E : (_ =? _) = true |- _ => apply Nat.eqb_eq in E; subst | E : (_ =? _) = false |- _ => apply Nat.eqb_neq in E | E : _ && _ = true |- _ => apply andb_prop in E; destruct E end;
  unf.
Ltac upds := repeat match goal with
  | H : context [upd ?f ?a ?v ?b] |- _ => destruct (Nat.eq_dec b a); [subst; rewrite upd_eq in H | rewrite upd_neq in H by assumption]
  | |- context [upd ?f ?a ?v ?b] => destruct (Nat.eq_dec b a); [subst; rewrite upd_eq | rewrite upd_neq by assumption] end.

Record invH (s : state) : Prop := InvH {
  h_new : forall h x, hs s h = Some x -> h < nh s;
  h_pair : forall h x k, hs s h = Some x -> h_thr x = Some k -> h_src x = Some k;
  h_old : forall h x k, hs s h = Some x -> h_src x = Some k -> 1 <= k < nth s;
  h_uniq : forall h x h' x' k, hs s h = Some x -> hs s h' = Some x' -> h_src x = Some k -> h_src x' = Some k -> h = h' }.
Record invP (s : state) : Prop := InvP {
  p_out : forall t, nth s <= t -> pcs s t = PUser /\ ended s t = false;
  p_one : 1 <= nth s;
  p_excl : forall t u h, uses (pcs s t) h = true -> uses (pcs s u) h = true -> t = u;
  p_live : forall t h, uses (pcs s t) h = true -> exists x, hs s h = Some x;
  p_req : forall t h k, pcs s t = PReq h k -> k <> KJoin /\ exists x j, hs s h = Some x /\ h_thr x = Some j;
  p_join : forall t h k, pcs s t = PJoin h k -> k <> KJoin -> exists x j, hs s h = Some x /\ h_thr x = Some j /\ asked s j = true }.

Lemma invH_init : invH init.
Proof. constructor; cbn; intros; discriminate. Qed.
Lemma invP_init : invP init.
Proof. constructor; cbn; intros; try discriminate; try lia. now split. Qed.

Section Step.
Context (t : nat) (a : action) (s s' : state) (H : step t a s = Some (Next s')).
Lemma invH_step : invH s -> invP s -> invH s'.
Proof.
  intros [N P O U] [_ Q1 _ _ _ _].
  split_step H; proj; constructor; proj; intros; upds; repeat match goal with K : Some _ = Some _ |- _ => injection K as K; subst end; proj; try discriminate; try congruence; try lia; eauto.
  all: try (match goal with K : hs s ?h = Some ?x |- ?h < S _ => apply N in K; lia end).
  all: try (match goal with K : hs s ?h = Some ?x, J : h_src ?x = Some ?k |- _ <= ?k < _ => pose proof (O _ _ _ K J); lia end).
  all: try (match goal with A : hs s ?a = Some ?x, B : hs s ?b = Some ?y, C : h_src ?x = Some ?k, D : h_src ?y = Some ?k |- _ => assert (a = b) by eauto; congruence end).
  - injection H0 as <-. lia.
  - repeat match goal with K : Some _ = Some _ |- _ => injection K as K; subst end. match goal with K : hs s ?h = Some ?x, J : h_src ?x = Some ?k |- _ => pose proof (O _ _ _ K J); lia end.
  - repeat match goal with K : Some _ = Some _ |- _ => injection K as K; subst end. match goal with K : hs s ?h = Some ?x, J : h_src ?x = Some ?k |- _ => pose proof (O _ _ _ K J); lia end.
Qed.
Lemma pcs_other : forall u, u <> t -> pcs s' u = pcs s u.
Proof. intros u N. split_step H; rewrite ?upd_neq by easy; easy. Qed.
Lemma asked_mono : forall k, asked s k = true -> asked s' k = true.
Proof. intros k K. split_step H; upds; easy. Qed.
Lemma nth_mono : nth s <= nth s'.
Proof. split_step H; lia. Qed.
(** Nobody changes an object that another thread uses. *)
Lemma free_no : forall h u, (forall t, nth s <= t -> pcs s t = PUser /\ ended s t = false) -> forallb (fun u => negb (uses (pcs s u) h)) (seq 0 (nth s)) = true -> uses (pcs s u) h = false.
Proof.
  intros h u O F. destruct (Nat.lt_ge_cases u (nth s)) as [L|L]; [|destruct (O u L) as (Z & _); now rewrite Z].
  rewrite forallb_forall in F. apply Bool.negb_true_iff, F, in_seq. lia.
Qed.
Lemma hs_other : invP s -> invH s -> forall u h, u <> t -> uses (pcs s u) h = true -> hs s' h = hs s h.
Proof.
  intros [O _ X L _ _] [N _ _ _] u h Ne K. pose proof (fun h => free_no h u O) as F. pose proof (fun h => X t u h) as Xt.
  assert (h <> nh s) as Nh. { intros ->. destruct (L u _ K) as (x & Z). apply N in Z. lia. }
  clear O X L N.
  split_step H; try reflexivity; upds; try reflexivity; try congruence; exfalso.
  all: try (match goal with G : forallb (fun u => negb (uses (pcs s u) ?h)) _ = true, K : uses (pcs s ?u) ?h = true |- _ => rewrite (F h G) in K; discriminate K end).
  all: apply Ne; symmetry; eapply Xt; [|exact K]; rewrite ?P; cbn [uses]; rewrite ?Nat.eqb_refl, ?orb_true_r; reflexivity.
Qed.
Lemma invP_step : invH s -> invP s -> invP s'.
Proof.
  intros HH PP. pose proof (hs_other PP HH) as HO. pose proof pcs_other as PO. pose proof asked_mono as AM. pose proof nth_mono as NM.
  destruct PP as [O Q X L R J]. pose proof (fun u h => free_no h u O) as F. constructor.
  - intros u G. assert (u <> t) by (unfold step in H; destruct (Nat.ltb_spec t (nth s)); [lia|discriminate]). rewrite PO by easy.
    destruct (O u ltac:(lia)) as (O1 & O2). split; [easy|]. clear - H O2 H0. split_step H; upds; easy.
  - lia.
  - intros u v h U V.
    assert (forall w, w <> t -> uses (pcs s' t) h = true -> uses (pcs s' w) h = true -> False) as K.
    { intros w W T G. rewrite PO in G by easy.
      assert (uses (pcs s t) h = true \/ forallb (fun u => negb (uses (pcs s u) h)) (seq 0 (nth s)) = true) as [K|K].
      { clear - H T. split_step H; rewrite ?upd_eq in T; rewrite ?P in T; cbn [uses] in *; try discriminate T; auto; rewrite ?orb_false_r in *; try (apply Nat.eqb_eq in T; subst; auto).
        all: apply orb_prop in T; destruct T as [T|T]; apply Nat.eqb_eq in T; subst; rewrite ?Nat.eqb_refl; auto. }
      - apply W. symmetry. now apply (X t w h).
      - rewrite (F w h K) in G. discriminate. }
    destruct (Nat.eq_dec u t) as [->|Nu]; destruct (Nat.eq_dec v t) as [->|Nv]; [easy|destruct (K v Nv U V)|destruct (K u Nu V U)|]. rewrite PO in U, V by easy. now apply (X u v h).
  - intros u h U. destruct (Nat.eq_dec u t) as [->|Nu].
    + pose proof (L t h) as Lt. pose proof (fun h => R t h) as Rt. clear - H U Lt. split_step H; rewrite ?upd_eq in U; rewrite ?P in *; cbn [uses] in *; try discriminate U; auto; rewrite ?orb_false_r in *.
      all: try (apply orb_prop in U; destruct U as [U|U]); try (apply Nat.eqb_eq in U; subst); try (apply Lt; rewrite ?Nat.eqb_refl, ?orb_true_r; reflexivity); eauto.
    + rewrite PO in U by easy. destruct (L u h U) as (x & K). exists x. now rewrite (HO u h Nu U).
  - intros u h k U. destruct (Nat.eq_dec u t) as [->|Nu].
    + clear - H U. split_step H; rewrite ?upd_eq in U; rewrite ?P in *; try discriminate U; injection U as <- <-; (split; [easy|]);
      match goal with E : match h_thr ?x with Some _ => true | None => false end = true |- _ => destruct (h_thr x) as [j|] eqn:Z; [exists x, j; split; assumption|discriminate E] end.
    + rewrite PO in U by easy. destruct (R u h k U) as (R1 & x & j & R2 & R3). split; [easy|]. exists x, j.
      rewrite (HO u h Nu); [easy|]. rewrite U. cbn [uses]. now rewrite Nat.eqb_refl.
  - intros u h k U Nk. destruct (Nat.eq_dec u t) as [->|Nu].
    + pose proof (R t) as Rt. pose proof (h_pair _ HH) as HP. clear - H U Rt HP Nk. split_step H; rewrite ?upd_eq in U; rewrite ?P in *; try discriminate U; try (injection U as <- <-); try congruence.
      all: destruct (Rt _ _ eq_refl) as (_ & x & j & R2 & R3); pose proof (HP _ _ _ R2 R3) as Z;
           match goal with E : hs s ?h = Some ?y, F : h_src ?y = _ |- _ => assert (y = x) by congruence; subst y; rewrite Z in F; try discriminate F; injection F as <- end.
      exists x, j. repeat split; try easy. apply upd_eq.
    + rewrite PO in U by easy. destruct (J u h k U Nk) as (x & j & R2 & R3 & R4). exists x, j.
      rewrite (HO u h Nu); [auto|]. rewrite U. cbn [uses]. now rewrite Nat.eqb_refl.
Qed.
End Step.
