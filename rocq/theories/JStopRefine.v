(** Each step of the machine of JStopModel, except those that delete the state too early, is
    a step of the abstract machine, and is defined. *)
From Coq Require Import ZifyBool ZifyNat.
From Verif Require Import Common JStopModel JStopSpec JStopWord JStopAbs JStopInv JStopInv2 JStopLog.

Ltac cproj := cbn [word head signalling cbs ncb stacks tokens sources freed log set_word set_stack set_cb set_head set_sig set_objs free note] in *.
Ltac proj := cbn [sp lk lst sig ob num stk tk sr fr lg s_stk s_lk s_sp s_lst s_sig s_ob s_objs s_num s_lg s_fr] in *.

(** ** References *)
Lemma refs_upd o k c x : c < k -> refs (upd o c x) k + Nat.b2n (a_ref (o c)) = refs o k + Nat.b2n (a_ref x).
Proof.
  intros H. unfold refs. pose proof (sum_upd (fun d => Nat.b2n (a_ref (o d))) (fun d => Nat.b2n (a_ref (upd o c x d))) c k H) as E.
  cbn beta in E. rewrite upd_eq in E. apply E. intros j Hj. now rewrite upd_neq.
Qed.
Lemma refs_same o k c x : a_ref x = a_ref (o c) -> refs (upd o c x) k = refs o k.
Proof. intros H. unfold refs. apply sum_ext. intros i _. destruct (Nat.eq_dec i c) as [->|N]; [now rewrite upd_eq, H|now rewrite upd_neq]. Qed.
Lemma refs_le o k : refs o k <= k.
Proof. apply sum_le. intros i. destruct (a_ref (o i)); cbn; lia. Qed.
Lemma refs_in o k c : c < k -> a_ref (o c) = true -> 1 <= refs o k.
Proof. intros H E. pose proof (sum_ge (fun d => Nat.b2n (a_ref (o d))) c k H) as G. cbn beta in G. rewrite E in G. exact G. Qed.
Lemma refs_new o k : refs (upd o k o_new) (S k) = refs o k.
Proof. unfold refs. cbn [sum]. rewrite upd_eq. cbn [o_new a_ref Nat.b2n]. apply sum_ext. intros i Hi. rewrite upd_neq by lia. reflexivity. Qed.
Lemma fits_le T T' S S' : fits T S -> T' <= T -> S' <= S -> fits T' S'.
Proof. unfold fits. lia. Qed.
Lemma fits_and T S : fits T 0 -> fits 0 S -> fits T S.
Proof. unfold fits. lia. Qed.

Section Threads.
Context (n : nat).

Record inv3 (a : ast) : Prop := {
  k_fits : fits (tk a + num a) (sr a);
  k_fr : fr a = true <-> tk a = 0 /\ sr a = 0 /\ refs (ob a) (num a) = 0
}.

Lemma use_tk a t f st b : t < n -> stk a t = f :: st -> inv1 n a -> in_add b f = true -> 1 <= tk a.
Proof.
  intros Ht Est I1 H. pose proof (i_use n a I1) as U. unfold bsy, movg in U.
  pose proof (tot_in n (in_add b) (stk a) t f Ht ltac:(rewrite Est; now left) H).
  destruct b; [lia|]. destruct (Nat.eqb_spec (tot n (in_add false) (stk a)) 0); lia.
Qed.
(** What the top frame uses exists *)
Lemma frame_refs a t f st : t < n -> stk a t = f :: st -> inv1 n a -> inv2 n a ->
  match f with
  | FUser | FReqRun _ _ | FReqBody _ _ _ | FAddInl _ _ | FAddRet _ _ => True
  | _ => 1 <= tk a \/ 1 <= sr a \/ 1 <= refs (ob a) (num a)
  end.
Proof.
  intros Ht Est I1 I2. pose proof (use_tk a t f st true Ht Est I1) as U1. pose proof (use_tk a t f st false Ht Est I1) as U2.
  pose proof (i_src n a I1) as Hs. pose proof (fun E => tot_in n in_req (stk a) t f Ht ltac:(rewrite Est; now left) E) as Hr.
  pose proof (top_J n a t f st Est I2) as [_ HJ]. pose proof (refs_in (ob a) (num a)) as RI.
  destruct f; cbn [in_add in_req fcb JC] in *; try exact I; auto;
    try (destruct mv; cbn in *; auto; fail); right; right; apply (RI c); tauto.
Qed.

Ltac zero := match goal with |- context [fr ?a || ?b] => destruct (fr a); cbn [orb] end; rewrite ?andb_true_iff, ?Nat.eqb_eq.

Lemma inv3_lib t f st a a' : t < n -> stk a t = f :: st -> inv1 n a -> inv2 n a -> inv3 a -> lstep t a st f a' -> inv3 a'.
Proof.
  intros Ht Est I1 I2 [K1 K2] H.
  pose proof (use_tk a t f st true Ht Est I1) as U1. pose proof (use_tk a t f st false Ht Est I1) as U2.
  pose proof (top_J n a t f st Est I2) as [_ HJ].
  inversion H as [? ? Hc | | | | | | | | | | | | | | | | | | | | | | ]; subst; clear H; cbn [fcb JC in_add] in *; try (constructor; proj; assumption).
  - constructor; proj; [exact K1|]. now rewrite refs_same.
  - destruct r; constructor; proj; try assumption. now rewrite refs_same.
  - destruct r; constructor; proj; try assumption. now rewrite refs_same.
  - assert (T : 1 <= tk a) by (destruct mv; auto). constructor; proj.
    + eapply fits_le; [exact K1| |reflexivity]. destruct mv; lia.
    + pose proof (refs_upd (ob a) (num a) c (o_ref (ob a c)) ltac:(tauto)) as E. destruct HJ as (_ & _ & E1 & _). rewrite E1 in E. cbn in E.
      split; [intros G; apply K2 in G; lia|lia].
  - constructor; proj; [exact K1|]. now rewrite refs_same.
  - constructor; proj; [exact K1|]. zero.
    + split; [intros _|tauto]. apply proj1 in K2. destruct (K2 eq_refl) as (? & ? & Z). destruct HJ as (Hc & _ & E1). pose proof (refs_in (ob a) (num a) c Hc E1). lia.
    + intuition.
  - constructor; proj; [exact K1|]. zero.
    + split; [intros _|tauto]. apply proj1 in K2. destruct (K2 eq_refl) as (? & ? & Z). destruct HJ as (Hc & _ & E1 & _). pose proof (refs_in (ob a) (num a) c Hc E1). lia.
    + intuition.
Qed.

Lemma inv3_user t st a a' : t < n -> stk a t = FUser :: st -> inv1 n a -> inv2 n a -> inv3 a -> ustep n t a st a' -> inv3 a'.
Proof.
  intros Ht Est I1 I2 [K1 K2] H.
  inversion H; subst; clear H; try (constructor; proj; assumption).
  - constructor; proj; [|split; [intros G; apply K2 in G; lia|lia]]. destruct H1, K1. split; lia.
  - constructor; proj; [eapply fits_le; [exact K1|lia|lia]|]. zero; [|intuition]. split; [intros _|tauto]. apply proj1 in K2. specialize (K2 eq_refl). lia.
  - constructor; proj; [|split; [intros G; apply K2 in G; lia|lia]]. destruct H1, K1. split; lia.
  - constructor; proj; [eapply fits_le; [exact K1|lia|lia]|]. zero; [|intuition]. split; [intros _|tauto]. apply proj1 in K2. specialize (K2 eq_refl). lia.
  - constructor; proj; [|now rewrite refs_new]. destruct H1, K1. split; lia.
  - constructor; proj; [exact K1|]. now rewrite refs_same.
  - constructor; proj; [exact K1|]. rewrite refs_same; [exact K2|]. cbn. rewrite <- (j_alive n a I2 c H1 H0). auto.
Qed.

(** ** The intrusive list *)
Fixpoint seg (cb : nat -> cb) (p : ploc) (h : option nat) (l : list nat) : Prop :=
  match l with
  | [] => h = None
  | c :: r => h = Some c /\ c_prev (cb c) = Some p /\ seg cb (PNext c) (c_next (cb c)) r
  end.
Definition st_next (cb : nat -> cb) (p : ploc) (v : option nat) : nat -> JStopModel.cb :=
  match p with PHead => cb | PNext d => upd cb d (with_next (cb d) v) end.
Definition st_prev (cb : nat -> cb) (h : option nat) (q : option ploc) : nat -> JStopModel.cb :=
  match h with None => cb | Some d => upd cb d (with_prev (cb d) q) end.
Definition acb_of (x : cb) : acb := Acb (c_rem x) (c_fin x) (c_state x) (c_life x) (c_ref x).
Definition set_cbs (s : state) (f : nat -> cb) : state :=
  State (word s) (head s) (signalling s) f (ncb s) (stacks s) (tokens s) (sources s) (freed s) (log s).

Lemma seg_ext cb cb' p h l : (forall d, In d l -> c_next (cb' d) = c_next (cb d) /\ c_prev (cb' d) = c_prev (cb d)) -> seg cb p h l -> seg cb' p h l.
Proof.
  revert p h. induction l as [|c r IH]; intros p h H; [auto|]. cbn [seg]. destruct (H c (or_introl eq_refl)) as [-> ->].
  intros (-> & -> & G). repeat split; auto. apply IH; [|exact G]. intros; apply H; now right.
Qed.
Lemma st_prev_acb cb h q c : acb_of (st_prev cb h q c) = acb_of (cb c).
Proof. destruct h as [d|]; [|reflexivity]. cbn [st_prev]. destruct (Nat.eq_dec c d) as [->|N]; [now rewrite upd_eq|now rewrite upd_neq]. Qed.
Lemma st_prev_next cb h q c : c_next (st_prev cb h q c) = c_next (cb c).
Proof. destruct h as [d|]; [|reflexivity]. cbn [st_prev]. destruct (Nat.eq_dec c d) as [->|N]; [now rewrite upd_eq|now rewrite upd_neq]. Qed.
Lemma st_prev_prev cb h q c : h <> Some c -> c_prev (st_prev cb h q c) = c_prev (cb c).
Proof. intros H. destruct h as [d|]; [|reflexivity]. cbn [st_prev]. rewrite upd_neq; [reflexivity|congruence]. Qed.
Lemma st_next_acb cb p v c : acb_of (st_next cb p v c) = acb_of (cb c).
Proof. destruct p as [|d]; [reflexivity|]. cbn [st_next]. destruct (Nat.eq_dec c d) as [->|N]; [now rewrite upd_eq|now rewrite upd_neq]. Qed.
Lemma st_next_prev cb p v c : c_prev (st_next cb p v c) = c_prev (cb c).
Proof. destruct p as [|d]; [reflexivity|]. cbn [st_next]. destruct (Nat.eq_dec c d) as [->|N]; [now rewrite upd_eq|now rewrite upd_neq]. Qed.
Lemma st_next_next cb p v c : p <> PNext c -> c_next (st_next cb p v c) = c_next (cb c).
Proof. intros H. destruct p as [|d]; [reflexivity|]. cbn [st_next]. rewrite upd_neq; [reflexivity|congruence]. Qed.
Lemma seg_head cb p h l d : seg cb p h l -> h = Some d -> In d l.
Proof. destruct l as [|c r]; cbn [seg]; [congruence|]. intros (-> & _) E. injection E as ->. now left. Qed.

Lemma seg_relink cb p q h l : NoDup l -> seg cb q h l -> seg (st_prev cb h (Some p)) p h l.
Proof.
  destruct l as [|c r]; [auto|]. cbn [seg]. intros ND (-> & _ & G). inversion ND as [|? ? Nc ND']; subst.
  split; [reflexivity|]. cbn [st_prev]. rewrite upd_eq. cbn [with_prev c_prev c_next]. split; [reflexivity|].
  eapply seg_ext; [|exact G]. intros d Hd. rewrite upd_neq; [auto|congruence].
Qed.
Lemma seg_pop cb c l q : NoDup (c :: l) -> seg cb q (Some c) (c :: l) ->
  let cb1 := st_prev cb (c_next (cb c)) (Some PHead) in seg (upd cb1 c (with_prev (cb1 c) None)) PHead (c_next (cb c)) l.
Proof.
  intros ND (_ & _ & G) cb1. inversion ND as [|? ? Nc ND']; subst.
  eapply seg_ext; [|apply (seg_relink cb PHead (PNext c)); [exact ND'|exact G]].
  intros d Hd. rewrite upd_neq; [auto|congruence].
Qed.
Lemma seg_push cb cb' c h l : NoDup l -> ~ In c l -> seg cb PHead h l ->
  (forall d, d <> c -> cb' d = st_prev cb h (Some (PNext c)) d) -> c_next (cb' c) = h -> c_prev (cb' c) = Some PHead -> seg cb' PHead (Some c) (c :: l).
Proof.
  intros ND Nc G E En Ep. cbn [seg]. rewrite En, Ep. repeat split.
  eapply seg_ext; [|apply (seg_relink cb (PNext c) PHead); [exact ND|exact G]].
  intros d Hd. rewrite E by congruence. auto.
Qed.
Lemma seg_prev cb c p h l1 l2 : seg cb p h (l1 ++ c :: l2) ->
  exists q, c_prev (cb c) = Some q /\ match l1 with [] => q = p | _ => exists d, In d l1 /\ q = PNext d end.
Proof.
  revert p h. induction l1 as [|e l1 IH]; intros p h; cbn [app seg].
  - intros (_ & E & _). exists p. now split.
  - intros (_ & _ & G). destruct (IH _ _ G) as (q & Eq & H). exists q. split; [exact Eq|].
    destruct l1 as [|e' l1]; [exists e; split; [now left|exact H]|]. destruct H as (d & Hd & ->). exists d. split; [now right|reflexivity].
Qed.
Lemma seg_next cb c p h l1 l2 : seg cb p h (l1 ++ c :: l2) -> seg cb (PNext c) (c_next (cb c)) l2.
Proof. revert p h. induction l1 as [|e l1 IH]; intros p h; cbn [app seg]; [tauto|]. intros (_ & _ & G). eauto. Qed.

Lemma seg_unlink cb c p h l1 l2 q : NoDup (l1 ++ c :: l2) -> seg cb p h (l1 ++ c :: l2) -> c_prev (cb c) = Some q -> (forall d, In d (l1 ++ c :: l2) -> p <> PNext d) ->
  seg (st_prev (st_next cb q (c_next (cb c))) (c_next (cb c)) (Some q)) p (match l1 with [] => c_next (cb c) | _ => h end) (l1 ++ l2).
Proof.
  revert p h. induction l1 as [|e l1 IH]; intros p h ND G Eq Hp; cbn [app] in *.
  - destruct G as (_ & E & G). rewrite Eq in E. injection E as ->. inversion ND as [|? ? Nc ND']; subst.
    apply (seg_relink _ p (PNext c)); [exact ND'|]. eapply seg_ext; [|exact G]. intros d Hd. rewrite st_next_prev, st_next_next; [auto|]. apply Hp. now right.
  - destruct G as (-> & Ep & G). inversion ND as [|? ? Ne ND']; subst.
    assert (Hee : forall d, In d (l1 ++ c :: l2) -> PNext e <> PNext d) by (intros d Hd E; injection E as ->; contradiction).
    specialize (IH (PNext e) (c_next (cb e)) ND' G Eq Hee).
    assert (Hn : c_next (cb c) <> Some e).
    { intros E. pose proof (seg_head _ _ _ _ e (seg_next _ _ _ _ _ _ G) E). apply Ne. apply in_or_app. right. now right. }
    cbn [seg]. split; [reflexivity|]. rewrite st_prev_prev by exact Hn. rewrite st_next_prev. split; [exact Ep|].
    rewrite st_prev_next. destruct (seg_prev _ _ _ _ _ _ G) as (q' & Eq' & Hq). rewrite Eq in Eq'. injection Eq' as <-.
    destruct l1 as [|e' l1].
    + subst q. cbn [st_next] in *. rewrite upd_eq. exact IH.
    + destruct Hq as (d & Hd & ->). rewrite st_next_next; [exact IH|]. intros E. injection E as ->. apply Ne. apply in_or_app. now left.
Qed.

(** ** The states of the two machines *)
Record R (s : state) (a : ast) : Prop := {
  r_word : word s = enc (sp a) (lk a) (tk a + refs (ob a) (num a)) (sr a);
  r_seg : seg (cbs s) PHead (head s) (lst a);
  r_null : forall c, a_life (ob a c) <> LGone -> ~ In c (lst a) -> c_prev (cbs s c) = None;
  r_cb : forall c, ob a c = acb_of (cbs s c);
  r_sig : signalling s = sig a;
  r_num : ncb s = num a;
  r_stk : stacks s = stk a;
  r_tk : tokens s = tk a;
  r_sr : sources s = sr a;
  r_fr : freed s = fr a;
  r_lg : log s = lg a
}.
Definition enc_at (a : ast) (x y : bool) : Z := enc x y (tk a + refs (ob a) (num a)) (sr a).

Lemma R_stack s a t l : R s a -> R (set_stack s t l) (s_stk a t l).
Proof. intros []. constructor; proj; cproj; try assumption; first [reflexivity|congruence]. Qed.
Lemma R_note s a e : R s a -> R (note s e) (s_lg a e).
Proof. intros []. constructor; proj; cproj; try assumption; first [reflexivity|congruence]. Qed.
Lemma R_sig s a t : R s a -> R (set_sig s t) (s_sig a t).
Proof. intros []. constructor; proj; cproj; try assumption; first [reflexivity|congruence]. Qed.
Lemma R_lock s a x y w : R s a -> w = enc_at a x y -> R (set_word s w) (s_lk (s_sp a x) y).
Proof. intros [] ->. constructor; proj; cproj; try assumption; first [reflexivity|congruence]. Qed.
Lemma R_lk s a y w : R s a -> w = enc_at a (sp a) y -> R (set_word s w) (s_lk a y).
Proof. intros [] ->. constructor; proj; cproj; try assumption; first [reflexivity|congruence]. Qed.
Lemma R_ob s a c x y : R s a -> acb_of x = y -> c_next x = c_next (cbs s c) -> c_prev x = c_prev (cbs s c) -> a_ref y = a_ref (ob a c) ->
  (a_life y <> LGone -> a_life (ob a c) <> LGone) -> R (set_cb s c x) (s_ob a c y).
Proof.
  intros [] Ex En Ep Er El. constructor; proj; cproj; try assumption.
  - now rewrite refs_same.
  - eapply seg_ext; [|exact r_seg0]. intros d _. destruct (Nat.eq_dec d c) as [->|N]; [now rewrite upd_eq|now rewrite upd_neq].
  - intros d. destruct (Nat.eq_dec d c) as [->|N]; [rewrite !upd_eq, Ep; auto|rewrite !upd_neq by exact N; auto].
  - intros d. destruct (Nat.eq_dec d c) as [->|N]; [now rewrite !upd_eq|now rewrite !upd_neq].
Qed.
Lemma live_eq s a c : R s a -> live s c = match a_life (ob a c) with LGone => false | _ => true end.
Proof. intros H. rewrite (r_cb s a H c). reflexivity. Qed.
Lemma live_true s a c : R s a -> a_life (ob a c) <> LGone -> live s c = true.
Proof. intros H N. rewrite (live_eq s a c H). destruct (a_life (ob a c)); congruence. Qed.

Lemma set_prev_ok s h q : (forall d, h = Some d -> live s d = true) -> set_prev_of s h q = Ok (set_cbs s (st_prev (cbs s) h q)).
Proof. intros H. destruct h as [d|]; cbn; [now rewrite (H d eq_refl)|now destruct s]. Qed.
Definition set_hc (s : state) (h : option nat) (f : nat -> cb) : state :=
  State (word s) h (signalling s) f (ncb s) (stacks s) (tokens s) (sources s) (freed s) (log s).
Lemma store_ok s p v : (forall d, p = PNext d -> live s d = true) -> store_next s p v = Ok (set_hc s (match p with PHead => v | _ => head s end) (st_next (cbs s) p v)).
Proof. intros H. destruct p as [|d]; cbn; [reflexivity|now rewrite (H d eq_refl)]. Qed.

Section Step.
Context (s : state) (a : ast) (HR : R s a) (I1 : inv1 n a) (I2 : inv2 n a) (I3 : inv3 a).

Lemma fits_all : fits (tk a + refs (ob a) (num a)) (sr a).
Proof. eapply fits_le; [exact (k_fits a I3)| |reflexivity]. pose proof (refs_le (ob a) (num a)). lia. Qed.
Lemma word_fresh : fresh a (word s).
Proof. rewrite (r_word s a HR). split; [apply enc_stop|apply enc_requestable, fits_all]. Qed.
Lemma word_locked : is_locked (word s) = lk a.
Proof. rewrite (r_word s a HR). apply enc_locked. Qed.
Lemma not_freed : 1 <= tk a \/ 1 <= sr a \/ 1 <= refs (ob a) (num a) -> freed s = false.
Proof. intros H. rewrite (r_fr s a HR). destruct (fr a) eqn:E; [|reflexivity]. apply (k_fr a I3) in E. lia. Qed.
Lemma unlock_eq : lk a = true -> wrap (word s - locked_flag) = enc_at a (sp a) false.
Proof. intros E. rewrite (r_word s a HR), E. apply enc_unlock, fits_all. Qed.
Lemma lock_eq : lk a = false -> Z.lor (word s) locked_flag = enc_at a (sp a) true.
Proof. intros E. rewrite (r_word s a HR), E. apply enc_lock. Qed.

Lemma holder t f st : t < n -> stk a t = f :: st -> holds f = true -> lk a = true.
Proof.
  intros Ht Est H. pose proof (tot_in n holds (stk a) t f Ht ltac:(rewrite Est; now left) H) as G. rewrite (i_lock n a I1) in G. destruct (lk a); [reflexivity|cbn in G; lia].
Qed.

(** The word when a callback loses its reference *)
Lemma refs_lose c : c < num a -> a_ref (ob a c) = true -> tk a + refs (ob a) (num a) = S (tk a + refs (upd (ob a) c (o_gone (ob a c))) (num a)).
Proof. intros Hc E. pose proof (refs_upd (ob a) (num a) c (o_gone (ob a c)) Hc) as G. rewrite E in G. cbn in G. lia. Qed.

Lemma refine_pop t st w : t < n -> stk a t = FReqLoop :: st -> exists s' a', lib_step w t FReqLoop st s = Some (Ok s') /\ lstep t a st FReqLoop a' /\ R s' a'.
Proof.
  intros Ht Est. pose proof (frame_refs a t _ st Ht Est I1 I2) as Hf. apply not_freed in Hf.
  pose proof (unlock_eq (holder t _ st Ht Est eq_refl)) as HU.
  pose proof (r_seg s a HR) as HS. pose proof (j_nodup n a I2) as ND. pose proof (j_lst n a I2) as HL.
  cbn [lib_step]. unfold touch. rewrite Hf. cbn [negb guard].
  destruct (lst a) as [|c l] eqn:El.
  - cbn [seg] in HS. rewrite HS. eexists _, _. split; [reflexivity|]. split; [now apply l_end|].
    apply R_note. apply R_stack. apply R_lk; [exact HR|exact HU].
  - pose proof HS as (Eh & Ep & HS'). rewrite Eh.
    rewrite (live_true s a c HR) by (apply HL; now left). cbn [guard].
    assert (Hlive : forall d, c_next (cbs s c) = Some d -> live (set_head s (c_next (cbs s c))) d = true).
    { intros d Ed. apply (live_true s a d HR). apply HL. right. eapply seg_head; [exact HS'|exact Ed]. }
    rewrite set_prev_ok by exact Hlive. cbn [rbind]. eexists _, _. split; [reflexivity|]. split; [apply (l_pop t a st c l El)|].
    replace (match c_next (cbs s c) with Some _ => true | None => false end) with (negb (isnil l)).
    2:{ destruct l; cbn [seg] in HS'; [now rewrite HS'|destruct HS' as (-> & _); reflexivity]. }
    apply R_stack. rewrite Eh in HS. destruct HR. constructor; proj; try assumption.
    + apply (seg_pop (cbs s) c l PHead ND HS).
    + cbn [cbs unlock set_word set_cb set_cbs set_head]. intros d Hd Hn. destruct (Nat.eq_dec d c) as [->|N]; [now rewrite upd_eq|].
      rewrite upd_neq, st_prev_prev; [|intros E; apply Hn; eapply seg_head; [exact HS'|exact E]|exact N].
      apply r_null0; [exact Hd|]. rewrite El. intros [->|G]; [congruence|contradiction].
    + cbn [cbs unlock set_word set_cb set_cbs set_head]. intros d. destruct (Nat.eq_dec d c) as [->|N]; [rewrite upd_eq|now rewrite upd_neq, st_prev_acb].
      rewrite r_cb0. symmetry. apply (st_prev_acb (cbs s) (c_next (cbs s c)) (Some PHead) c).
Qed.

Lemma refine_push t st c mv w : t < n -> stk a t = FAddPush c mv :: st -> exists s' a', lib_step w t (FAddPush c mv) st s = Some (Ok s') /\ lstep t a st (FAddPush c mv) a' /\ R s' a'.
Proof.
  intros Ht Est. pose proof (frame_refs a t _ st Ht Est I1 I2) as Hf. apply not_freed in Hf.
  pose proof (holder t _ st Ht Est eq_refl) as Hlk.
  assert (Htk : 1 <= tk a) by (apply (use_tk a t _ st mv Ht Est I1); destruct mv; reflexivity).
  pose proof (top_J n a t _ st Est I2) as [_ HJ]. cbn [fcb JC] in HJ. destruct HJ as (Hc & L & E1 & _ & _ & Hn & _).
  pose proof (r_seg s a HR) as HS. pose proof (j_nodup n a I2) as ND. pose proof (j_lst n a I2) as HL.
  pose proof (k_fits a I3) as HF.
  pose proof (refs_upd (ob a) (num a) c (o_ref (ob a c)) Hc) as ER. rewrite E1 in ER. cbn [Nat.b2n o_ref a_ref] in ER.
  pose proof (refs_le (upd (ob a) c (o_ref (ob a c))) (num a)) as RL.
  cbn [lib_step]. unfold touch. rewrite Hf. cbn [negb guard].
  set (s0 := set_cb s c (with_next (cbs s c) (head s))).
  rewrite (set_prev_ok s0).
  2:{ intros d Ed. pose proof (seg_head _ _ _ _ d HS Ed) as Hd. assert (N : d <> c) by congruence. unfold live, s0. cbn [cbs set_cb]. rewrite upd_neq by exact N.
      apply (live_true s a d HR). apply HL. exact Hd. }
  cbn [rbind]. eexists _, _. split; [reflexivity|]. split; [apply l_push|].
  apply R_stack.
  assert (Hcb : forall d, d <> c -> upd (upd (st_prev (cbs s0) (head s) (Some (PNext c))) c (with_prev (st_prev (cbs s0) (head s) (Some (PNext c)) c) (Some PHead))) c
      (with_ref (upd (st_prev (cbs s0) (head s) (Some (PNext c))) c (with_prev (st_prev (cbs s0) (head s) (Some (PNext c)) c) (Some PHead)) c) true) d = st_prev (cbs s) (head s) (Some (PNext c)) d).
  { intros d N. rewrite !upd_neq by exact N. unfold s0. cbn [cbs set_cb]. destruct (head s) as [h|]; cbn [st_prev]; [|now rewrite upd_neq].
    destruct (Nat.eq_dec d h) as [->|N']; [rewrite !upd_eq; now rewrite upd_neq|now rewrite !upd_neq]. }
  assert (Hh : head s <> Some c) by (intros E; apply Hn; eapply seg_head; eassumption).
  assert (Hc0 : st_prev (cbs s0) (head s) (Some (PNext c)) c = with_next (cbs s c) (head s)).
  { unfold s0. cbn [cbs set_cb]. destruct (head s) as [h|]; cbn [st_prev]; [rewrite upd_neq by congruence|]; now rewrite upd_eq. }
  assert (HX : forall x, word x = enc (sp a) false ((if mv then tk a - 1 else tk a) + refs (upd (ob a) c (o_ref (ob a c))) (num a)) (sr a) ->
     head x = Some c -> signalling x = signalling s -> cbs x = upd (upd (st_prev (cbs s0) (head s) (Some (PNext c))) c (with_prev (st_prev (cbs s0) (head s) (Some (PNext c)) c) (Some PHead))) c
      (with_ref (upd (st_prev (cbs s0) (head s) (Some (PNext c))) c (with_prev (st_prev (cbs s0) (head s) (Some (PNext c)) c) (Some PHead)) c) true) ->
     ncb x = ncb s -> stacks x = stacks s -> tokens x = (if mv then tokens s - 1 else tokens s) -> sources x = sources s -> freed x = freed s -> log x = log s ->
     R x (s_lk (s_objs (s_lst (s_ob a c (o_ref (ob a c))) (c :: lst a)) (if mv then tk a - 1 else tk a) (sr a)) false)).
  { intros x X1 X2 X3 X4 X5 X6 X7 X8 X9 X10. pose proof HR as []. constructor; proj; rewrite ?X1, ?X2, ?X3, ?X4, ?X5, ?X6, ?X8, ?X9, ?X10; try assumption; try reflexivity.
    - apply (seg_push (cbs s) _ c (head s) (lst a) ND Hn HS Hcb); rewrite !upd_eq, Hc0; reflexivity.
    - intros d Hd Nd. assert (N : d <> c) by (intros ->; apply Nd; now left). rewrite Hcb by exact N. rewrite upd_neq in Hd by exact N.
      rewrite st_prev_prev; [apply r_null0; [exact Hd|intros G; apply Nd; now right]|]. intros E. apply Nd. right. eapply seg_head; eassumption.
    - intros d. destruct (Nat.eq_dec d c) as [->|N].
      + rewrite !upd_eq, Hc0, r_cb0. reflexivity.
      + rewrite Hcb by exact N. rewrite upd_neq by exact N. now rewrite st_prev_acb.
    - rewrite X7. now rewrite r_tk0. }
  apply HX; destruct mv; cproj; try reflexivity; try (cbn; reflexivity).
  - cbn [unlock set_word set_cb set_head set_cbs word]. unfold s0. cbn [word set_cb]. rewrite (unlock_eq Hlk). unfold enc_at. f_equal. lia.
  - cbn [unlock_inc set_word set_cb set_head set_cbs word]. unfold s0. cbn [word set_cb]. rewrite (r_word s a HR), Hlk, enc_unlock_inc; [f_equal; lia|].
    eapply fits_le; [exact HF| |reflexivity]. lia.
Qed.

(** The fields of a state after a callback has lost its reference *)
Lemma R_lose x c l f : (word x = enc (sp a) false (tk a + refs (upd (ob a) c (o_gone (ob a c))) (num a)) (sr a) \/ word x = enc (sp a) (lk a) (tk a + refs (upd (ob a) c (o_gone (ob a c))) (num a)) (sr a) /\ l = lst a) ->
  seg (cbs x) PHead (head x) l -> (forall d, d <> c -> a_life (ob a d) <> LGone -> ~ In d l -> c_prev (cbs x d) = None) ->
  (forall d, d <> c -> acb_of (cbs x d) = acb_of (cbs s d)) -> acb_of (cbs x c) = o_gone (acb_of (cbs s c)) ->
  signalling x = signalling s -> ncb x = ncb s -> stacks x = stacks s -> tokens x = tokens s -> sources x = sources s -> freed x = f -> log x = log s ->
  forall b, word x = enc (sp a) b (tk a + refs (upd (ob a) c (o_gone (ob a c))) (num a)) (sr a) ->
  f = fr a || (Nat.eqb (tk a) 0 && Nat.eqb (sr a) 0 && Nat.eqb (refs (upd (ob a) c (o_gone (ob a c))) (num a)) 0) ->
  R x (s_fr (s_lk (s_lst (s_ob a c (o_gone (ob a c))) l) b)).
Proof.
  intros _ X2 X3 X4 X5 X6 X7 X8 X9 X10 X11 X12 b X1 Hf. pose proof HR as [].
  constructor; proj; try congruence.
  - intros d. destruct (Nat.eq_dec d c) as [->|N]; [rewrite upd_eq; intros G; now destruct G|rewrite upd_neq by exact N; auto].
  - intros d. destruct (Nat.eq_dec d c) as [->|N]; [rewrite upd_eq, X5, r_cb0; reflexivity|rewrite upd_neq, X4 by exact N; apply r_cb0].
Qed.

Lemma refine_unlink t st c w : t < n -> stk a t = FRmBody c :: st -> exists s' a', lib_step w t (FRmBody c) st s = Some (Ok s') /\ lstep t a st (FRmBody c) a' /\ R s' a'.
Proof.
  intros Ht Est. pose proof (frame_refs a t _ st Ht Est I1 I2) as Hf. apply not_freed in Hf.
  pose proof (holder t _ st Ht Est eq_refl) as Hlk.
  pose proof (top_J n a t _ st Est I2) as [_ HJ]. cbn [fcb JC] in HJ. destruct HJ as (Hc & L & E1).
  pose proof (r_seg s a HR) as HS. pose proof (j_nodup n a I2) as ND. pose proof (j_lst n a I2) as HL.
  pose proof fits_all as HF. pose proof (refs_lose c Hc E1) as ER.
  cbn [lib_step]. unfold touch. rewrite Hf. cbn [negb guard].
  destruct (c_prev (cbs s c)) as [p|] eqn:Ep.
  - assert (Hin : In c (lst a)).
    { destruct (in_dec Nat.eq_dec c (lst a)) as [G|G]; [exact G|]. rewrite (r_null s a HR c) in Ep; [discriminate|congruence|exact G]. }
    apply in_split in Hin as (l1 & l2 & El). rewrite El in HS, ND. rewrite El in HL.
    pose proof (seg_prev _ _ _ _ _ _ HS) as (q & Eq & Hq). rewrite Ep in Eq. injection Eq as <-.
    pose proof (seg_unlink _ _ _ _ _ _ p ND HS Ep ltac:(discriminate)) as HU.
    pose proof (seg_next _ _ _ _ _ _ HS) as HN.
    assert (Hlv : forall d, In d (l1 ++ c :: l2) -> a_life (ob a d) <> LGone) by (intros d Hd; now apply HL).
    rewrite store_ok.
    2:{ intros d ->. apply (live_true s a d HR), Hlv. destruct l1; [discriminate|]. destruct Hq as (e & He & E). injection E as ->. apply in_or_app. now left. }
    cbn [rbind].
    rewrite set_prev_ok.
    2:{ intros d Ed. unfold live. cbn [set_hc cbs]. pose proof (seg_head _ _ _ _ d HN Ed) as Hd.
        assert (G : a_life (acb_of (st_next (cbs s) p (c_next (cbs s c)) d)) <> LGone).
        { rewrite st_next_acb, <- (r_cb s a HR d). apply Hlv. apply in_or_app. right. now right. }
        cbn [acb_of a_life] in G. destruct (c_life _); congruence. }
    cbn [rbind set_cbs set_hc cbs head word]. eexists _, _. split; [reflexivity|]. split; [apply (l_unlink t a st c l1 l2 El)|].
    unfold gone. apply R_note.
    set (cb1 := st_prev (st_next (cbs s) p (c_next (cbs s c))) (c_next (cbs s c)) (Some p)) in *.
    assert (Hc1 : acb_of (cb1 c) = acb_of (cbs s c)) by (unfold cb1; now rewrite st_prev_acb, st_next_acb).
    assert (Nc : ~ In c (l1 ++ l2)) by (now apply NoDup_remove_2 in ND).
    set (x := unlock_dec (set_cb _ _ _)).
    assert (Hx : x = State (enc (sp a) false (tk a + refs (upd (ob a) c (o_gone (ob a c))) (num a)) (sr a)) (match p with PHead => c_next (cbs s c) | PNext _ => head s end)
       (signalling s) (upd cb1 c (with_ref (cb1 c) false)) (ncb s) (stacks s) (tokens s) (sources s)
       (Nat.eqb (tk a + refs (upd (ob a) c (o_gone (ob a c))) (num a)) 0 && Nat.eqb (sr a) 0) (log s)).
    { unfold x, unlock_dec. cbn [word set_word set_cb free set_cbs set_hc]. rewrite (r_word s a HR), Hlk, ER. rewrite ER in HF. rewrite enc_unlock_dec, enc_unlock_last by exact HF.
      destruct (_ && _); unfold free, set_word, set_cb, set_cbs, set_hc; cproj; rewrite ?Hf; reflexivity. }
    rewrite Hx. clear Hx x.
    match goal with |- R (set_cb (set_stack ?y t st) c ?v) _ => apply (R_stack (set_cb y c v) (s_fr (s_lk (s_lst (s_ob a c (o_gone (ob a c))) (l1 ++ l2)) false)) t st) end.
    eapply R_lose; cbn [word head signalling cbs ncb stacks tokens sources freed log set_cb]; try reflexivity.
    + now left.
    + eapply seg_ext; [|replace (match p with PHead => c_next (cbs s c) | PNext _ => head s end) with (match l1 with [] => c_next (cbs s c) | _ => head s end); [exact HU|]].
      * intros d Hd. assert (d <> c) by congruence. now rewrite !upd_neq.
      * destruct l1; [now subst p|]. destruct Hq as (e & _ & ->). reflexivity.
    + intros d N Hd Hi. rewrite !upd_neq by exact N. unfold cb1. rewrite st_prev_prev, st_next_prev.
      * apply (r_null s a HR); [exact Hd|]. rewrite El. intros G. apply in_app_or in G as [G|[G|G]]; [apply Hi, in_or_app; now left|congruence|apply Hi, in_or_app; now right].
      * intros E. apply Hi, in_or_app. right. exact (seg_head _ _ _ _ d HN E).
    + intros d N. rewrite !upd_neq by exact N. unfold cb1. now rewrite st_prev_acb, st_next_acb.
    + rewrite !upd_eq. injection Hc1 as H1 H2 H3 H4 H5. cbn [cbs set_stack]. rewrite upd_eq. unfold acb_of, o_gone, with_life, with_ref. cbn [c_rem c_fin c_state c_life c_ref a_rem a_fin a_st a_life a_ref]. congruence.
    + assert (Hfr : fr a = false) by (now rewrite <- (r_fr s a HR)). rewrite Hfr. cbn [orb].
      destruct (tk a); [|reflexivity]. cbn [Nat.eqb Nat.add andb]. apply andb_comm.
  - eexists _, _. split; [reflexivity|]. split.
    + apply l_called. intros G. apply in_split in G as (l1 & l2 & El). rewrite El in HS. destruct (seg_prev _ _ _ _ _ _ HS) as (q & Eq & _). congruence.
    + apply R_stack. apply R_lk; [exact HR|]. now apply unlock_eq.
Qed.

Lemma refine_drop t st c w : t < n -> stk a t = FRmDrop c :: st -> (sr a = 0 -> tk a + refs (ob a) (num a) <= 1) ->
  exists s' a', lib_step w t (FRmDrop c) st s = Some (Ok s') /\ lstep t a st (FRmDrop c) a' /\ R s' a'.
Proof.
  intros Ht Est HP. pose proof (frame_refs a t _ st Ht Est I1 I2) as Hf. apply not_freed in Hf.
  pose proof (top_J n a t _ st Est I2) as [_ HJ]. cbn [fcb JC] in HJ. destruct HJ as (Hc & L & E1 & Nc).
  pose proof (r_seg s a HR) as HS.
  pose proof fits_all as HF. pose proof (refs_lose c Hc E1) as ER.
  cbn [lib_step]. unfold touch. rewrite Hf. cbn [negb guard].
  eexists _, _. split; [reflexivity|]. split; [apply l_drop|]. unfold gone. apply R_note.
  set (x := remove_token _).
  assert (Hx : x = State (enc (sp a) (lk a) (tk a + refs (upd (ob a) c (o_gone (ob a c))) (num a)) (sr a)) (head s)
       (signalling s) (upd (cbs s) c (with_ref (cbs s c) false)) (ncb s) (stacks s) (tokens s) (sources s) (Nat.eqb (sr a) 0) (log s)).
  { unfold x, remove_token. cbn [word set_word set_cb free]. rewrite (r_word s a HR), ER. rewrite ER in HF. rewrite enc_remove_token, enc_remove_token_last by exact HF.
    destruct (Nat.eqb (sr a) 0); unfold free, set_word, set_cb; cproj; rewrite ?Hf; reflexivity. }
  rewrite Hx. clear Hx x.
  match goal with |- R (set_cb (set_stack ?y t st) c ?v) _ => apply (R_stack (set_cb y c v) (s_fr (s_lk (s_lst (s_ob a c (o_gone (ob a c))) (lst a)) (lk a))) t st) end.
  eapply R_lose; cbn [word head signalling cbs ncb stacks tokens sources freed log set_cb]; try reflexivity.
  - right. now split.
  - eapply seg_ext; [|exact HS]. intros d Hd. assert (d <> c) by congruence. now rewrite !upd_neq.
  - intros d N Hd Hi. rewrite !upd_neq by exact N. now apply (r_null s a HR).
  - intros d N. now rewrite !upd_neq by exact N.
  - rewrite !upd_eq. cbn [cbs set_stack]. now rewrite upd_eq.
  - assert (Hfr : fr a = false) by (now rewrite <- (r_fr s a HR)). rewrite Hfr. cbn [orb].
    destruct (Nat.eqb_spec (sr a) 0) as [E|E]; [|now rewrite andb_false_r]. rewrite E in HP.
    specialize (HP eq_refl). replace (tk a) with 0 by lia. replace (refs _ _) with 0 by lia. reflexivity.
Qed.

Lemma refine_lib t f st w : t < n -> stk a t = f :: st -> f <> FUser -> (forall c, f = FRmDrop c -> sr a = 0 -> tk a + refs (ob a) (num a) <= 1) ->
  exists s' a', lib_step w t f st s = Some (Ok s') /\ lstep t a st f a' /\ R s' a'.
Proof.
  intros Ht Est NU HP.
  pose proof word_fresh as WF. pose proof word_locked as WL. pose proof lock_eq as LE.
  pose proof (frame_refs a t _ st Ht Est I1 I2) as Hf. pose proof not_freed as NF.
  pose proof (top_J n a t _ st Est I2) as [Hw HJ].
  destruct f; [congruence| | | |now apply refine_pop| | | | | | |now apply refine_push| | | | |now apply refine_unlink| | |now apply refine_drop; [| |eapply HP]];
    cbn [lib_step]; try (apply NF in Hf; unfold touch; rewrite Hf; cbn [negb guard]); cbn [fcb JC Jw] in *.
  - eexists _, _. split; [reflexivity|]. split; [apply l_ctl, ctl_req, WF|now apply R_stack].
  - destruct (is_stop_requested old) eqn:Es; [eexists _, _; split; [reflexivity|]; split; [now apply l_false|now apply R_note, R_stack]|].
    destruct (is_locked old) eqn:Ek; [eexists _, _; split; [reflexivity|]; split; [now apply l_ctl, ctl_req1|now apply R_stack]|].
    destruct (Z.eqb_spec (word s) old) as [<-|N]; [destruct w|]; cbn [negb andb]; [| |]; eexists _, _; (split; [reflexivity|]); split.
    + apply l_ctl, ctl_req2, WF.
    + now apply R_stack.
    + apply l_signal; [destruct WF; congruence|congruence].
    + apply R_note, R_stack. apply R_lock; [exact HR|]. rewrite (r_word s a HR). destruct WF as [WF _]. rewrite <- WF, Es, <- WL, Ek. apply enc_signal.
    + apply l_ctl, ctl_req2, WF.
    + now apply R_stack.
  - eexists _, _. split; [reflexivity|]. split; [apply l_set|now apply R_stack, R_sig].
  - destruct HJ as (Hc & C1 & C2 & _). rewrite (live_true s a c HR C2). cbn [guard]. eexists _, _. split; [reflexivity|]. split; [apply l_run|].
    apply R_note, R_stack. apply R_ob; try reflexivity; [exact HR|now rewrite (r_cb s a HR c)|now rewrite (r_cb s a HR c)].
  - destruct removed.
    + destruct more; eexists _, _; (split; [reflexivity|]); split; [apply l_body|now apply R_stack|apply l_last|now apply R_note, R_stack].
    + destruct HJ as (Hc & C1 & C2 & _). rewrite (live_true s a c HR C2). cbn [guard].
      assert (G : R (set_cb s c (with_fin (with_rem (cbs s c) false) true)) (s_ob a c (o_fin (ob a c)))) by (apply R_ob; try reflexivity; [exact HR|now rewrite (r_cb s a HR c)|now rewrite (r_cb s a HR c)]).
      destruct more; eexists _, _; (split; [reflexivity|]); split; [apply l_body|now apply R_stack|apply l_last|now apply R_note, R_stack].
  - eexists _, _. split; [reflexivity|]. split; [apply l_ctl, ctl_lock|now apply R_stack].
  - destruct (is_locked old) eqn:Ek; [eexists _, _; split; [reflexivity|]; split; [now apply l_ctl, ctl_lock1|now apply R_stack]|].
    destruct (Z.eqb_spec (word s) old) as [<-|N]; [destruct w|]; cbn [negb andb]; eexists _, _; (split; [reflexivity|]); split.
    + apply l_ctl, ctl_lock2.
    + now apply R_stack.
    + apply l_relock. congruence.
    + apply R_stack. apply R_lk; [exact HR|]. apply LE. congruence.
    + apply l_ctl, ctl_lock2.
    + now apply R_stack.
  - eexists _, _. split; [reflexivity|]. split; [apply l_ctl, ctl_add, WF|now apply R_stack].
  - destruct (is_stop_requested old) eqn:Es; [eexists _, _; split; [reflexivity|]; split; [now apply l_inline|now apply R_note, R_stack]|].
    destruct (is_requestable old) eqn:Er; cbn [negb]; [|eexists _, _; split; [reflexivity|]; split; [now apply l_dead|now apply R_stack]].
    destruct (is_locked old) eqn:Ek; [eexists _, _; split; [reflexivity|]; split; [now apply l_ctl, ctl_add1|now apply R_stack]|].
    destruct (Z.eqb_spec (word s) old) as [<-|N]; [destruct w|]; cbn [negb andb]; eexists _, _; (split; [reflexivity|]); split.
    + apply l_ctl, ctl_add2, WF.
    + now apply R_stack.
    + apply l_addlock; [destruct WF; congruence|congruence].
    + apply R_stack. apply R_lk; [exact HR|]. apply LE. congruence.
    + apply l_ctl, ctl_add2, WF.
    + now apply R_stack.
  - eexists _, _. split; [reflexivity|]. split; [apply l_inlret|now apply R_stack].
  - eexists _, _. split; [reflexivity|]. split; [apply l_added|]. apply R_note, R_stack.
    apply R_ob; try reflexivity; [exact HR|now rewrite (r_cb s a HR c)|]. destruct HJ as (_ & -> & _). discriminate.
  - eexists _, _. split; [reflexivity|]. split; [apply l_ctl, ctl_rm|now apply R_stack].
  - destruct (is_locked old) eqn:Ek; [eexists _, _; split; [reflexivity|]; split; [now apply l_ctl, ctl_rm1|now apply R_stack]|].
    destruct (Z.eqb_spec (word s) old) as [<-|N]; [destruct w|]; cbn [negb andb]; eexists _, _; (split; [reflexivity|]); split.
    + apply l_ctl, ctl_rm2.
    + now apply R_stack.
    + apply l_rmlock. congruence.
    + apply R_stack. apply R_lk; [exact HR|]. apply LE. congruence.
    + apply l_ctl, ctl_rm2.
    + now apply R_stack.
  - assert (Ec : c_rem (cbs s c) = a_rem (ob a c)) by (now rewrite (r_cb s a HR c)). rewrite (r_sig s a HR), Ec.
    destruct (sig a) as [u|] eqn:Eg; [destruct (Nat.eqb_spec u t) as [->|N]|]; eexists _, _; (split; [reflexivity|]); split.
    + now apply l_self.
    + now apply R_stack.
    + apply l_other. congruence.
    + now apply R_stack.
    + apply l_other. congruence.
    + now apply R_stack.
  - assert (Ec : c_fin (cbs s c) = a_fin (ob a c)) by (now rewrite (r_cb s a HR c)). rewrite Ec.
    destruct (a_fin (ob a c)) eqn:Ef; eexists _, _; (split; [reflexivity|]); split.
    + now apply l_spun.
    + now apply R_stack.
    + apply l_ctl, ctl_spin.
    + now apply R_stack.
Qed.

Lemma moving_eq : moving n s = movg n a.
Proof. unfold moving, movg, total, tot. now rewrite (r_stk s a HR). Qed.
Lemma busy_eq : busy n s = bsy n a.
Proof. unfold busy, bsy. rewrite moving_eq. unfold total, tot. now rewrite (r_stk s a HR). Qed.
Lemma R_objs x y z w f : word x = enc (sp a) (lk a) (y + refs (ob a) (num a)) z -> head x = head s -> signalling x = signalling s -> cbs x = cbs s -> ncb x = ncb s -> stacks x = stacks s ->
  tokens x = y -> sources x = z -> freed x = f -> log x = log s -> w = s_objs a y z -> f = fr w -> R x w.
Proof. intros X1 X2 X3 X4 X5 X6 X7 X8 X9 X10 -> E. proj. destruct HR. constructor; proj; rewrite ?X2, ?X4; try assumption; congruence. Qed.
Lemma R_objs_fr x y z f : word x = enc (sp a) (lk a) (y + refs (ob a) (num a)) z -> head x = head s -> signalling x = signalling s -> cbs x = cbs s -> ncb x = ncb s -> stacks x = stacks s ->
  tokens x = y -> sources x = z -> freed x = f -> log x = log s -> f = fr a || (Nat.eqb y 0 && Nat.eqb z 0 && Nat.eqb (refs (ob a) (num a)) 0) -> R x (s_fr (s_objs a y z)).
Proof. intros X1 X2 X3 X4 X5 X6 X7 X8 X9 X10 E. destruct HR. constructor; proj; rewrite ?X2, ?X4; try assumption; congruence. Qed.

Lemma refine_user t st x r : stk a t = FUser :: st -> user_step n t x st s = Some r -> (x = ADelToken -> sr a = 0 -> tk a + refs (ob a) (num a) <= 1) ->
  exists s' a', r = Ok s' /\ ustep n t a st a' /\ R s' a'.
Proof.
  intros Est E HP.
  pose proof not_freed as NF. pose proof fits_all as FA. pose proof (k_fits a I3) as KF. pose proof word_fresh as [WF1 WF2].
  pose proof (r_word s a HR) as HW. pose proof (r_fr s a HR) as HFr. pose proof (refs_le (ob a) (num a)) as RL.
  unfold user_step in E. rewrite ?moving_eq, ?busy_eq in E. rewrite ?(r_tk s a HR), ?(r_sr s a HR), ?(r_num s a HR) in E.
  destruct x; try discriminate.
  - (* ANewToken *) destruct (_ && _) eqn:G in E; [|discriminate]. injection E as <-. apply andb_true_iff in G as [G1 G2].
    unfold touch. rewrite NF by lia. cbn [negb guard]. eexists _, _. split; [reflexivity|]. split; [apply u_token; [lia|split; lia]|].
    eapply R_objs; try reflexivity; [|now cbn].
    cbn [set_objs add_token set_word word]. rewrite HW, enc_add_token; [reflexivity|]. destruct KF. split; lia.
  - (* ADelToken *) destruct (_ <? _)%nat eqn:G in E; [|discriminate]. injection E as <-. apply Nat.ltb_lt in G.
    unfold touch. pose proof (NF ltac:(lia)) as Hf. rewrite Hf. cbn [negb guard]. eexists _, _. split; [reflexivity|]. split; [apply u_untoken; lia|].
    assert (ET : tk a + refs (ob a) (num a) = S (tk a - 1 + refs (ob a) (num a))) by lia.
    rewrite HFr in Hf.
    assert (Hx : set_objs (remove_token s) (tk a - 1) (sr a) = State (enc (sp a) (lk a) (tk a - 1 + refs (ob a) (num a)) (sr a)) (head s) (signalling s) (cbs s) (ncb s) (stacks s) (tk a - 1) (sr a) (Nat.eqb (sr a) 0) (log s)).
    { unfold remove_token. rewrite HW, ET. rewrite ET in FA. rewrite enc_remove_token, enc_remove_token_last by exact FA.
      destruct (Nat.eqb (sr a) 0); unfold set_objs, free, set_word; cproj; rewrite ?HFr, ?Hf; reflexivity. }
    rewrite Hx. eapply R_objs_fr; try reflexivity. rewrite Hf. cbn [orb freed].
    destruct (Nat.eqb_spec (sr a) 0) as [Z|Z]; [|now rewrite andb_false_r].
    specialize (HP eq_refl Z). replace (tk a - 1) with 0 by lia. replace (refs _ _) with 0 by lia. reflexivity.
  - (* ANewSource *) destruct (_ && _) eqn:G in E; [|discriminate]. injection E as <-. apply andb_true_iff in G as [G1 G2].
    unfold touch. rewrite NF by lia. cbn [negb guard]. eexists _, _. split; [reflexivity|]. split; [apply u_source; [lia|split; lia]|].
    eapply R_objs; try reflexivity; [|now cbn].
    cbn [set_objs add_source set_word word]. rewrite HW, enc_add_source; [reflexivity|]. destruct KF. split; lia.
  - (* ADelSource *) destruct (_ || _) eqn:G in E; [|discriminate]. injection E as <-. apply orb_true_iff in G.
    assert (G' : 2 <= sr a \/ 1 <= sr a /\ tot n in_req (stk a) = 0).
    { destruct G as [G|G]; [left; lia|right]. apply andb_true_iff in G as [G1 G2]. unfold total in G2. rewrite (r_stk s a HR) in G2. fold (tot n in_req (stk a)) in G2. lia. }
    unfold touch. pose proof (NF ltac:(lia)) as Hf. rewrite Hf. cbn [negb guard]. eexists _, _. split; [reflexivity|]. split; [apply u_unsource; exact G'|].
    rewrite HFr in Hf. assert (ES : sr a = S (sr a - 1)) by lia.
    assert (Hx : set_objs (remove_source s) (tk a) (sr a - 1) = State (enc (sp a) (lk a) (tk a + refs (ob a) (num a)) (sr a - 1)) (head s) (signalling s) (cbs s) (ncb s) (stacks s) (tk a) (sr a - 1)
        (Nat.eqb (tk a + refs (ob a) (num a)) 0 && Nat.eqb (sr a - 1) 0) (log s)).
    { unfold remove_source. rewrite HW, ES. rewrite ES in FA. rewrite enc_remove_source, enc_remove_source_last by exact FA.
      replace (S (sr a - 1) - 1) with (sr a - 1) by lia.
      destruct (Nat.eqb (tk a + refs (ob a) (num a)) 0 && Nat.eqb (sr a - 1) 0); unfold set_objs, free, set_word; cproj; rewrite ?HFr, ?Hf; reflexivity. }
    rewrite Hx. eapply R_objs_fr; try reflexivity. rewrite Hf. cbn [orb freed].
    destruct (tk a); [|reflexivity]. cbn [Nat.add Nat.eqb andb]. apply andb_comm.
  - (* AQuery *) destruct (_ || _) eqn:G in E; [|discriminate]. injection E as <-. apply orb_true_iff in G.
    unfold touch. rewrite NF by lia. cbn [negb guard]. eexists _, _. split; [reflexivity|]. split; [apply u_query|]. rewrite WF1. now apply R_note.
  - (* APossible *) destruct (_ <? _)%nat eqn:G in E; [|discriminate]. injection E as <-. apply Nat.ltb_lt in G.
    unfold touch. rewrite NF by lia. cbn [negb guard]. eexists _, _. split; [reflexivity|]. split; [apply u_possible|]. rewrite WF2. now apply R_note.
  - (* ARequest *) destruct (1 <=? sr a) eqn:G in E; [|discriminate]. injection E as <-. apply Nat.leb_le in G.
    unfold touch. rewrite NF by lia. cbn [negb guard]. eexists _, _. split; [reflexivity|]. split; [now apply u_request|]. now apply R_stack.
  - (* AConstruct *) destruct (_ && _) eqn:G in E; [|discriminate]. injection E as <-. apply andb_true_iff in G as [G1 G2].
    assert (G' : if mv then bsy n a < tk a else movg n a < tk a) by (destruct mv; lia).
    unfold touch. rewrite NF by (destruct mv; lia). cbn [negb guard]. eexists _, _. split; [reflexivity|]. split; [apply (u_construct n t a st mv G'); split; lia|].
    assert (Nn : ~ In (num a) (lst a)) by (intros H; destruct (j_lst n a I2 _ H); lia).
    destruct HR. constructor; proj; cproj; try assumption; try congruence.
    + now rewrite refs_new.
    + eapply seg_ext; [|exact r_seg0]. intros d Hd. rewrite upd_neq; [auto|congruence].
    + intros c. destruct (Nat.eq_dec c (num a)) as [->|N]; [rewrite !upd_eq; reflexivity|rewrite !upd_neq by exact N; auto].
    + intros c. destruct (Nat.eq_dec c (num a)) as [->|N]; [rewrite !upd_eq; reflexivity|rewrite !upd_neq by exact N; auto].
    + rewrite <- HFr. symmetry. apply NF. destruct mv; lia.
  - (* ADestroy *) pose proof (r_cb s a HR c) as Ec.
    destruct (c_life (cbs s c)) eqn:L; try discriminate. destruct (c <? num a) eqn:Hc; [|discriminate]. apply Nat.ltb_lt in Hc.
    assert (La : a_life (ob a c) = LAlive) by (now rewrite Ec).
    injection E as <-. destruct (c_state (cbs s c)) eqn:Es; eexists _, _; (split; [reflexivity|]); split.
    + apply u_destroy; [exact La|exact Hc|now rewrite Ec].
    + apply R_stack, R_note. apply R_ob; try reflexivity; try exact HR; rewrite ?Ec; try reflexivity. intros _. cbn. congruence.
    + apply u_drop; [exact La|exact Hc|now rewrite Ec].
    + apply R_note.
      assert (Hr : a_ref (ob a c) = false) by (rewrite <- (j_alive n a I2 c Hc La); now rewrite Ec).
      assert (Nc : ~ In c (lst a)) by (intros H; destruct (j_lst n a I2 _ H) as (_ & ? & _); congruence).
      destruct HR. constructor; proj; cproj; try assumption; try congruence.
      * rewrite refs_same; [exact HW|now rewrite Hr].
      * eapply seg_ext; [|exact r_seg0]. intros d Hd. rewrite !upd_neq by congruence. auto.
      * intros d. destruct (Nat.eq_dec d c) as [->|N]; [rewrite !upd_eq; intros H; now destruct H|rewrite !upd_neq by exact N; auto].
      * intros d. destruct (Nat.eq_dec d c) as [->|N]; [rewrite !upd_eq|rewrite !upd_neq by exact N; auto].
        rewrite Ec. unfold acb_of, o_gone, with_life. cbn. rewrite Ec in Hr. cbn in Hr. now rewrite Hr.
  - (* AReturn *) destruct st as [|f st']; [discriminate|]. destruct f; try discriminate; injection E as <-; eexists _, _; (split; [reflexivity|]); split.
    + now eapply u_body.
    + now apply R_note, R_stack.
    + now eapply u_inl.
    + now apply R_note, R_stack.
Qed.
End Step.

(** ** Executions *)
Definition ainit : ast := Ast false false [] None (fun _ => acb_of new_cb) 0 (fun _ => [FUser]) 0 1 false [].
Lemma tot_init p : p FUser = false -> tot n p (fun _ => [FUser]) = 0.
Proof. intros E. unfold tot, countf. cbn [filter]. rewrite E. induction n as [|m IH]; [reflexivity|]. exact IH. Qed.
Lemma init_R : R init ainit.
Proof. constructor; reflexivity || (intros; reflexivity). Qed.
Lemma init_1 : inv1 n ainit.
Proof.
  constructor; cbn [ainit stk lk sp lg sig tk sr]; rewrite ?tot_init by reflexivity; try reflexivity; try lia.
  - intros u. left. constructor.
  - unfold bsy, movg. cbn [ainit stk]. now rewrite !tot_init.
Qed.
Lemma init_2 : inv2 n ainit.
Proof.
  constructor; cbn [ainit stk lk sp lg sig tk sr num lst ob]; rewrite ?tot_init by reflexivity; try lia; try (intros; lia).
  - intros u f [<-|[]]. split; exact I.
  - intros c. rewrite tot_init by reflexivity. lia.
  - intros c. rewrite tot_init by reflexivity. lia.
  - constructor.
  - intros c [].
  - intros u v c f [E|[]]. discriminate.
  - intros u c m [E|[]]. discriminate.
  - intros c [t []].
Qed.
Lemma init_3 : inv3 ainit.
Proof. constructor; cbn; [split; cbn; lia|]. intuition discriminate. Qed.
Lemma init_4 : inv4 ainit.
Proof.
  constructor; cbn [ainit stk lk sp lg sig tk sr num lst ob]; try (intros; lia); try (intros; contradiction); try (intros; discriminate).
  - intros u f [<-|[]]. exact I.
  - split; [discriminate|]. intros [t []].
  - intros c u [[_ []]|[]].
  - constructor.
Qed.

Record good (s : state) (a : ast) : Prop := { h_R : R s a; h_1 : inv1 n a; h_2 : inv2 n a; h_3 : inv3 a; h_4 : inv4 a }.
Lemma good_init : good init ainit.
Proof. constructor; [apply init_R|apply init_1|apply init_2|apply init_3|apply init_4]. Qed.

Lemma references_eq s a : R s a -> references s = tk a + refs (ob a) (num a).
Proof. intros HR. unfold references, refs. rewrite (r_tk s a HR), (r_num s a HR). f_equal. apply sum_ext. intros i _. now rewrite (r_cb s a HR i). Qed.

Lemma step_good t x s a r : good s a -> step n t x s = Some r ->
  (sources s = 0 -> (x = ADelToken \/ exists c, hd_error (stacks s t) = Some (FRmDrop c)) -> references s <= 1) -> exists s' a', r = Ok s' /\ good s' a'.
Proof.
  intros [HR I1 I2 I3 I4] E HP. unfold step in E. destruct (Nat.ltb_spec t n) as [Ht|]; [|discriminate].
  rewrite (r_stk s a HR), (r_sr s a HR), (references_eq s a HR) in *. destruct (stk a t) as [|f st] eqn:Est; [discriminate|].
  assert (HL : forall w, f <> FUser -> lib_step w t f st s = Some r -> exists s' a', r = Ok s' /\ good s' a').
  { intros w NU El. destruct (refine_lib s a HR I1 I2 I3 t f st w Ht Est NU) as (s' & a' & E' & Hs & HR').
    - intros c -> Z. apply HP; [exact Z|]. right. now exists c.
    - exists s', a'. split; [congruence|]. constructor; [exact HR'|eapply inv1_lib; eassumption|eapply inv2_lib; eassumption|eapply inv3_lib; eassumption|eapply inv4_lib; eassumption]. }
  assert (HU : f = FUser -> user_step n t x st s = Some r -> exists s' a', r = Ok s' /\ good s' a').
  { intros -> El. destruct (refine_user s a HR I2 I3 t st x r Est El) as (s' & a' & E' & Hs & HR').
    - intros -> Z. apply HP; [exact Z|]. now left.
    - exists s', a'. split; [congruence|]. constructor; [exact HR'|eapply inv1_user; eassumption|eapply inv2_user; eassumption|eapply inv3_user; eassumption|eapply inv4_user; eassumption]. }
  destruct f; first [now apply HU|destruct x; try discriminate; [now apply (HL false)|now apply (HL true)]].
Qed.
End Threads.
