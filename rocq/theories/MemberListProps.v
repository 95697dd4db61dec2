(** C46: the member names of AWL_REFLECT. *)
From Coq Require Import ZifyBool ZifyNat.
From Verif Require Import Common MemberListModel.

(** ** Specification *)

Definition separator : list nat := [44; 32].

(** The text of the macro argument: the names separated by a comma and a space. *)
Fixpoint join (l : list (list nat)) : list nat :=
  match l with [] => [] | [x] => x | x :: l' => x ++ separator ++ join l' end.

(** Letters, digits and the underscore. *)
Definition id_char (c : nat) : Prop := 48 <= c <= 57 \/ 65 <= c <= 90 \/ c = 95 \/ 97 <= c <= 122.
Definition identifier (s : list nat) : Prop := s <> [] /\ Forall id_char s.

(** A text without the separator in it. *)
Definition no_separator (s : list nat) : Prop := forall a b, s <> a ++ separator ++ b.

(** ** Proof *)

Lemma no_sep_tl c s : no_separator (c :: s) -> no_separator s.
Proof. intros H a b ->. apply (H (c :: a) b). reflexivity. Qed.

Lemma no_sep_head c d s : no_separator (c :: d :: s) -> Nat.eqb c comma && Nat.eqb d space = false.
Proof.
  intros H. destruct (Nat.eqb_spec c comma) as [->|]; auto. destruct (Nat.eqb_spec d space) as [->|]; auto.
  exfalso. apply (H [] s). reflexivity.
Qed.

(** One piece up to the end of the text or up to the next separator, after its start is known. *)
Lemma piece_end s : forall p st, no_separator s -> st + length s <> st \/ p <> st -> st <= p ->
  traverse s p (Some st) false = Ok (if Nat.eqb (p + length s) st then [] else [(st, p + length s - st)]).
Proof.
  induction s as [|c s IH]; intros p st N NZ L; cbn [traverse length].
  - rewrite Nat.add_0_r. destruct (Nat.eqb_spec p st); auto. unfold guard. now replace (st <? p) with true by lia.
  - assert (R : traverse s (p + 1) (Some st) false = Ok (if Nat.eqb (p + S (length s)) st then [] else [(st, p + S (length s) - st)])).
    { rewrite IH; [|eapply no_sep_tl; eauto|lia|lia]. now replace (p + 1 + length s) with (p + S (length s)) by lia. }
    destruct (Nat.eqb c comma) eqn:C; [|exact R]. destruct s as [|d s]; [exact R|].
    destruct (Nat.eqb d space) eqn:D; [|exact R]. pose proof (no_sep_head _ _ _ N) as Q. rewrite C, D in Q. discriminate.
Qed.

Lemma piece_sep s : forall p st rest, no_separator s -> st < p + length s ->
  traverse (s ++ separator ++ rest) p (Some st) false =
  let* l := traverse rest (p + length s + 2) None true in Ok ((st, p + length s - st) :: l).
Proof.
  induction s as [|c s IH]; intros p st rest N L.
  - cbn [app separator traverse length] in *. cbn [Nat.eqb comma space]. rewrite Nat.add_0_r in *.
    unfold guard. now replace (st <? p) with true by lia.
  - cbn [app traverse length] in *.
    assert (R : traverse (s ++ separator ++ rest) (p + 1) (Some st) false =
      let* l := traverse rest (p + S (length s) + 2) None true in Ok ((st, p + S (length s) - st) :: l)).
    { destruct s as [|d s'].
      - rewrite IH; [|eapply no_sep_tl; eauto|cbn in *; lia].
        cbn [length]. now replace (p + 1 + 0) with (p + 1) by lia.
      - rewrite IH; [|eapply no_sep_tl; eauto|cbn in *; lia].
        now replace (p + 1 + length (d :: s')) with (p + S (length (d :: s'))) by (cbn; lia). }
    destruct (Nat.eqb c comma) eqn:C; [|exact R]. destruct s as [|d s].
    + cbn [app separator]. cbn [Nat.eqb space]. exact R.
    + cbn [app] in *. destruct (Nat.eqb d space) eqn:D; [|exact R].
      pose proof (no_sep_head _ _ _ N) as Q. rewrite C, D in Q. discriminate.
Qed.

(** After a separator the first character starts the piece. *)
Lemma after_sep c s p : no_separator (c :: s) -> 
  traverse (c :: s) p None true = traverse (c :: s) p (Some p) false.
Proof.
  intros N. cbn [traverse]. destruct (Nat.eqb c comma) eqn:C; auto. destruct s as [|d s]; auto.
  destruct (Nat.eqb d space) eqn:D; auto. pose proof (no_sep_head _ _ _ N) as Q. rewrite C, D in Q. discriminate.
Qed.

Lemma after_sep_app c s p rest : no_separator (c :: s) ->
  traverse ((c :: s) ++ separator ++ rest) p None true = traverse ((c :: s) ++ separator ++ rest) p (Some p) false.
Proof.
  intros N. cbn [app traverse]. destruct (Nat.eqb c comma) eqn:C; auto. destruct s as [|d s]; cbn [app separator].
  - reflexivity.
  - destruct (Nat.eqb d space) eqn:D; auto. pose proof (no_sep_head _ _ _ N) as Q. rewrite C, D in Q. discriminate.
Qed.

Definition piece (s : list nat) : Prop := s <> [] /\ no_separator s.

(** The calls of [accept] for pieces that start at [p]. *)
Fixpoint calls (p : nat) (l : list (list nat)) : list (nat * nat) :=
  match l with [] => [] | x :: l' => (p, length x) :: calls (p + length x + 2) l' end.

Lemma join_cons x y l : join (x :: y :: l) = x ++ separator ++ join (y :: l).
Proof. reflexivity. Qed.

Lemma traverse_join l : forall p, l <> [] -> Forall piece l -> traverse (join l) p (Some p) false = Ok (calls p l).
Proof.
  induction l as [|x l IH]; intros p NE F; [congruence|]. inversion F as [|? ? [X N] F']; subst.
  destruct l as [|y l].
  - cbn [join calls]. rewrite piece_end; auto.
    + destruct (Nat.eqb_spec (p + length x) p); [destruct x; [congruence|cbn in *; lia]|]. now replace (p + length x - p) with (length x) by lia.
    + left. destruct x; [congruence|cbn; lia].
  - rewrite join_cons, piece_sep; auto. 2:{ destruct x; [congruence|cbn; lia]. }
    assert (A : traverse (join (y :: l)) (p + length x + 2) None true = traverse (join (y :: l)) (p + length x + 2) (Some (p + length x + 2)) false).
    { inversion F' as [|? ? [Y NY] ?]; subst. destruct y as [|c y]; [congruence|]. destruct l as [|z l].
      - cbn [join]. now apply after_sep.
      - rewrite join_cons. now apply after_sep_app. }
    rewrite A, IH by (auto; congruence). cbn [rbind calls]. now replace (p + length x - p) with (length x) by lia.
Qed.

Lemma calls_length l p : length (calls p l) = length l.
Proof. revert p; induction l; cbn; auto. Qed.

Lemma skipn_app_exact {A} (a b : list A) n : n = length a -> skipn n (a ++ b) = b.
Proof. intros ->. rewrite skipn_app, skipn_all, Nat.sub_diag. reflexivity. Qed.

Lemma substrings l : forall pre, map (fun x => substring (pre ++ join l) (fst x) (snd x)) (calls (length pre) l) = l.
Proof.
  induction l as [|x l IH]; intros pre; [reflexivity|]. cbn [calls map fst snd].
  f_equal.
  - unfold substring. rewrite skipn_app_exact by reflexivity.
    destruct l; [cbn [join]; apply firstn_all|]. rewrite join_cons, firstn_app, Nat.sub_diag, firstn_all. cbn. now rewrite app_nil_r.
  - destruct l as [|y l]; [reflexivity|]. rewrite join_cons.
    specialize (IH (pre ++ x ++ separator)). rewrite !app_length in IH. cbn [separator length] in IH.
    replace (length pre + (length x + 2)) with (length pre + length x + 2) in IH by lia.
    rewrite <- !app_assoc in IH. exact IH.
Qed.

Lemma names_join l : Forall piece l -> getArgNames (join l) = Ok l.
Proof.
  intros F. destruct l as [|x l]; [reflexivity|]. unfold getArgNames, getArgCount.
  rewrite traverse_join by (auto; congruence). cbn [rbind]. rewrite map_length, calls_length, Nat.eqb_refl. cbn [guard].
  f_equal. exact (substrings (x :: l) []).
Qed.

Lemma identifier_piece s : identifier s -> piece s.
Proof.
  intros [N F]. split; auto. intros a b ->. apply Forall_app in F. destruct F as [_ F]. inversion F; subst.
  unfold id_char in *. lia.
Qed.

(** ** Theorems *)

(** The names of AWL_REFLECT(a, b, c) are a, b and c. *)
Theorem reflect_names ids : Forall identifier ids -> getArgNames (join ids) = Ok ids.
Proof. intros F. apply names_join. eapply Forall_impl; [|exact F]. apply identifier_piece. Qed.
Print Assumptions reflect_names.

(** In general the text is cut at every comma that is followed by a space, and only there. *)
Theorem reflect_cuts l : Forall (fun s => s <> [] /\ no_separator s) l -> getArgNames (join l) = Ok l.
Proof. apply names_join. Qed.
Print Assumptions reflect_cuts.

(** [find_index] gives the position of a name, and nothing for other names. *)
Theorem reflect_find ids name : Forall identifier ids -> exists v, getArgNames (join ids) = Ok v /\
  match find_index v name with
  | Some i => nth_error ids i = Some name /\ forall j, j < i -> nth_error ids j <> Some name
  | None => ~ In name ids
  end.
Proof.
  intros F. exists ids. split; [now apply reflect_names|]. clear F.
  induction ids as [|x ids IH]; cbn; auto. unfold string_eqb. destruct (list_eq_dec Nat.eq_dec x name) as [->|N].
  - split; auto. intros j; lia.
  - destruct (find_index ids name) as [i|]; cbn.
    + destruct IH as [A B]. split; auto. intros [|j] L; cbn; [congruence|]. apply B. lia.
    + intros [|]; auto.
Qed.
Print Assumptions reflect_find.

(** If the user writes no space after the comma, or a space before it, AWL_REFLECT compiles but the names are
    wrong: AWL_REFLECT(a,b) has one name, AWL_REFLECT(a , b) has a name that ends with a space. *)
Theorem reflect_spacing_refuted :
  (exists a b v, identifier a /\ identifier b /\ getArgNames (a ++ [44] ++ b) = Ok v /\ v <> [a; b] /\ length v = 1) /\
  (exists a b v, identifier a /\ identifier b /\ getArgNames (a ++ [32; 44; 32] ++ b) = Ok v /\ v <> [a; b]).
Proof.
  assert (I : forall c, 97 <= c <= 122 -> identifier [c]).
  { intros c L. split; [congruence|]. constructor; [unfold id_char; lia|constructor]. }
  split; exists [97], [98]; eexists; (split; [apply I; lia|]); (split; [apply I; lia|]); (split; [vm_compute; reflexivity|]).
  - split; [discriminate|reflexivity].
  - discriminate.
Qed.
Print Assumptions reflect_spacing_refuted.

(** "x1, _y" *)
Example reflect_demo : getArgNames [120; 49; 44; 32; 95; 121] = Ok [[120; 49]; [95; 121]].
Proof. reflexivity. Qed.
Example reflect_empty : getArgNames [] = Ok [].
Proof. reflexivity. Qed.
