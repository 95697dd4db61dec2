(** Unordered containers in files (C88). *)
From Verif Require Import Common Int2ArrayModel CodecModel CodecSpec CodecProofs CodecLocal CodecProps UnorderedModel.
From Coq Require Import Permutation.
Local Open Scope Z_scope.

(** ** Specification *)
(** What a hash table does: an element with an equivalent key stays, anything else is added *)
Definition table_ok (eqv : val -> val -> bool) (key : val -> val) (insert : table) : Prop :=
  forall l x, ((exists y, In y l /\ eqv (key y) (key x) = true) -> insert l x = l)
           /\ (~ (exists y, In y l /\ eqv (key y) (key x) = true) -> Permutation (insert l x) (x :: l)).
(** No two elements have equivalent keys *)
Fixpoint distinct (eqv : val -> val -> bool) (key : val -> val) (l : list val) : Prop :=
  match l with
  | [] => True
  | x :: r => (forall y, In y r -> eqv (key x) (key y) = false /\ eqv (key y) (key x) = false) /\ distinct eqv key r
  end.
Definition is_pair (E : env) (k t : ty) (p : val) : Prop :=
  match p with VPair x y => has_ty E k x /\ has_ty E t y | _ => False end.

(** ** The bytes are those of a deque of the elements *)
Lemma get_add_fold {stm} (r : stm -> res (val * stm)) add n : forall acc pre s,
  get_add r add n (fold_left add pre acc) s =
  (let* (l, s1) := get_add r (deque_push None) n pre s in Ok (fold_left add l acc, s1)).
Proof.
  induction n as [|n IH]; intros acc pre s; cbn [get_add rbind]; [reflexivity|].
  destruct (r s) as [[v s1]| |]; cbn [rbind]; auto. cbn [deque_push]. rewrite <- IH. now rewrite fold_left_app.
Qed.
Lemma uset_write_deque E t l : uset_write E t l = pwrite E (TDeque None t) (VList l).
Proof. reflexivity. Qed.
Lemma pread_deque E t s : pread E (TDeque None t) (VList []) s =
  (let* (n, r) := get_size get_raw s in
   let* (l, r1) := get_add (pread E t (default E t)) (deque_push None) (Z.to_nat n) [] r in Ok (VList l, r1)).
Proof. reflexivity. Qed.
Lemma uset_read_deque E insert t old s :
  uset_read E insert t old s =
  (let* (v, r) := pread E (TDeque None t) (VList []) s in Ok (fold_left insert (as_list v) old, r)).
Proof.
  unfold uset_read, pread at 2. cbn [read as_list]. destruct (get_size get_raw s) as [[n r]| |]; cbn [rbind]; auto.
  fold (pread E t). rewrite (get_add_fold _ insert (Z.to_nat n) old [] r).
  destruct (get_add _ _ _ _ _) as [[l r1]| |]; reflexivity.
Qed.
Definition to_pair (v : val) : val := match v with VTup [x; y] => VPair x y | v => v end.
Definition of_pair (v : val) : val := match v with VPair x y => VTup [x; y] | v => v end.
Lemma put_pairs E k t l : Forall (is_pair E k t) l ->
  put_list (put_pair E k t) l = put_list (pwrite E (TTuple [k; t])) (map of_pair l).
Proof.
  induction 1 as [|p l P F IH]; [reflexivity|]. cbn [map put_list]. rewrite IH. destruct p; try contradiction.
  unfold put_pair, of_pair. unfold pwrite at 4. cbn [write map put_each]. fold (pwrite E k) (pwrite E t).
  destruct (pwrite E k p1) as [a| |]; cbn [rbind]; auto. destruct (pwrite E t p2) as [b| |]; cbn [rbind]; auto.
  now rewrite app_nil_r.
Qed.
Lemma get_pair_tuple E k t s : get_pair E k t s = (let* (v, r) := pread E (TTuple [k; t]) (default E (TTuple [k; t])) s in Ok (to_pair v, r)).
Proof.
  unfold get_pair, pread. cbn [read map get_each default as_list hd tl].
  destruct (read E get_raw plain_struct k (default E k) s) as [[x s1]| |]; cbn [rbind]; auto.
  destruct (read E get_raw plain_struct t (default E t) s1) as [[y s2]| |]; cbn [rbind]; auto.
Qed.
Lemma get_add_map {stm} (r r' : stm -> res (val * stm)) f n : (forall s, r s = let* (v, s1) := r' s in Ok (f v, s1)) -> forall pre s,
  get_add r (deque_push None) n (map f pre) s = (let* (l, s1) := get_add r' (deque_push None) n pre s in Ok (map f l, s1)).
Proof.
  intros H. induction n as [|n IH]; intros pre s; cbn [get_add rbind]; [reflexivity|].
  rewrite H. destruct (r' s) as [[v s1]| |]; cbn [rbind]; auto. rewrite <- IH. cbn [deque_push]. now rewrite map_app.
Qed.
Lemma umap_write_deque E k t l : Forall (is_pair E k t) l -> umap_write E k t l = pwrite E (TDeque None (TTuple [k; t])) (VList (map of_pair l)).
Proof. intros F. unfold umap_write. rewrite put_pairs by assumption. unfold pwrite at 2. cbn [write]. now rewrite map_length. Qed.
Lemma umap_read_deque E insert k t old s :
  umap_read E insert k t old s =
  (let* (v, r) := pread E (TDeque None (TTuple [k; t])) (VList []) s in Ok (fold_left insert (map to_pair (as_list v)) old, r)).
Proof.
  rewrite pread_deque. unfold umap_read. destruct (get_size get_raw s) as [[n r]| |]; cbn [rbind]; auto.
  rewrite (get_add_fold _ insert (Z.to_nat n) old [] r).
  pose proof (get_add_map _ (pread E (TTuple [k; t]) (default E (TTuple [k; t]))) to_pair (Z.to_nat n) (get_pair_tuple E k t) [] r) as M.
  cbn [map] in M. rewrite M.
  destruct (get_add (pread _ _ _) _ _ _ _) as [[l r1]| |]; reflexivity.
Qed.

(** ** Tables *)
Section Table.
Context (eqv : val -> val -> bool) (key : val -> val) (insert : table) (OK : table_ok eqv key insert).
Lemma fold_distinct l : forall old, distinct eqv key l -> (forall x y, In x old -> In y l -> eqv (key x) (key y) = false) ->
  Permutation (fold_left insert l old) (old ++ l).
Proof.
  induction l as [|x l IH]; intros old D H; cbn [fold_left]; [now rewrite app_nil_r|]. destruct D as [D1 D2].
  assert (P : Permutation (insert old x) (x :: old)).
  { apply OK. intros (y & Hy & Ey). rewrite (H y x Hy) in Ey by now left. discriminate. }
  rewrite IH; [|exact D2|].
  - rewrite P. cbn [app]. apply Permutation_middle.
  - intros a b Ha Hb. apply (Permutation_in _ P) in Ha as [<-|Ha]; [now apply D1|]. apply H; [exact Ha|now right].
Qed.
Lemma fold_keeps l : forall old x, In x old -> In x (fold_left insert l old).
Proof.
  induction l as [|y l IH]; intros old x Hx; cbn [fold_left]; [exact Hx|]. apply IH.
  destruct (OK old y) as [K N].
  destruct (existsb (fun z => eqv (key z) (key y)) old) eqn:Ex.
  - rewrite K; [exact Hx|]. apply existsb_exists in Ex. exact Ex.
  - apply Permutation_in with (y :: old); [symmetry; apply N|now right].
    intros Ex'. apply existsb_exists in Ex'. congruence.
Qed.
Lemma fold_in l : forall old x, In x (fold_left insert l old) -> In x old \/ In x l.
Proof.
  induction l as [|y l IH]; intros old x Hx; cbn [fold_left] in Hx; [now left|]. apply IH in Hx as [Hx|Hx]; [|right; now right].
  destruct (OK old y) as [K N]. destruct (existsb (fun z => eqv (key z) (key y)) old) eqn:Ex.
  - rewrite K in Hx; [now left|]. now apply existsb_exists in Ex.
  - assert (Hx' : In x (y :: old)) by (apply Permutation_in with (insert old y); [apply N; intros Ex'; apply existsb_exists in Ex'; congruence|exact Hx]).
    destruct Hx' as [->|Hx']; [right; now left|now left].
Qed.
Context (SYM : forall a b, eqv a b = eqv b a).
Lemma distinct_perm l l' : Permutation l l' -> distinct eqv key l -> distinct eqv key l'.
Proof.
  induction 1 as [|x l l' P IH|x y l|l l1 l2 P1 IH1 P2 IH2]; cbn [distinct]; auto.
  - intros [H D]. split; [|auto]. intros y Hy. apply H. now apply (Permutation_in _ (Permutation_sym P)).
  - intros [H1 [H2 D]]. split; [|split; [|exact D]].
    + intros z [<-|Hz]; [|now apply H2]. split; apply (H1 x); now left.
    + intros z Hz. apply H1. now right.
Qed.
Lemma fold_stays_distinct l : forall old, distinct eqv key old -> distinct eqv key (fold_left insert l old).
Proof.
  induction l as [|y l IH]; intros old D; cbn [fold_left]; [exact D|]. apply IH.
  destruct (OK old y) as [K N]. destruct (existsb (fun z => eqv (key z) (key y)) old) eqn:Ex.
  - rewrite K; [exact D|]. now apply existsb_exists in Ex.
  - apply distinct_perm with (y :: old); [symmetry; apply N; intros Ex'; apply existsb_exists in Ex'; congruence|].
    cbn [distinct]. split; [|exact D]. intros z Hz.
    assert (F : eqv (key z) (key y) = false).
    { destruct (eqv (key z) (key y)) eqn:Q; [|reflexivity]. rewrite <- Ex. symmetry. apply existsb_exists. eauto. }
    split; [now rewrite SYM|exact F].
Qed.
End Table.

(** ** Sets *)
(** Whatever the hash table, an unordered set is read back with the same elements, in some order *)
Theorem unordered_set_round_trip E eqv insert t l rest :
  table_ok eqv (fun v => v) insert -> wf_ty E t -> Forall (has_ty E t) l -> small (length l) -> distinct eqv (fun v => v) l ->
  exists bs l', uset_write E t l = Ok bs /\ uset_read E insert t [] (bs ++ rest) = Ok (l', rest) /\ Permutation l l'.
Proof.
  intros OK W F S D. assert (HT : has_ty E (TDeque None t) (VList l)) by (cbn; auto).
  destruct (codec_write_total E _ _ HT) as (bs & Wr & _). exists bs, (fold_left insert l []).
  rewrite uset_write_deque. split; [exact Wr|]. rewrite uset_read_deque.
  rewrite (codec_round_trip E (TDeque None t) (VList l) (VList []) bs rest); [|cbn; auto|exact HT|reflexivity|exact Wr].
  cbn [rbind as_list]. split; [reflexivity|]. symmetry. apply (fold_distinct eqv (fun v => v) insert OK l [] D). intros x y [].
Qed.
(** A file that is cut off is noticed *)
Theorem unordered_set_truncated E insert t l a b :
  wf_ty E t -> Forall (has_ty E t) l -> small (length l) -> uset_write E t l = Ok (a ++ b) -> b <> [] ->
  forall old, uset_read E insert t old a = Throw EndOfFile.
Proof.
  intros W F S Wr N old. rewrite uset_read_deque. rewrite uset_write_deque in Wr.
  rewrite (codec_truncated E (TDeque None t) (VList l) (VList []) a b); cbn; auto.
Qed.
(** Whatever the bytes: if they are accepted the elements are values of the type and no two are equivalent *)
Theorem unordered_set_any_bytes E eqv insert t s l r :
  table_ok eqv (fun v => v) insert -> (forall a b, eqv a b = eqv b a) -> (forall c, strict (cmp E c)) -> wf_ty E t ->
  uset_read E insert t [] s = Ok (l, r) -> Forall (has_ty E t) l /\ distinct eqv (fun v => v) l.
Proof.
  intros OK SYM ST W R. rewrite uset_read_deque in R.
  destruct (pread E (TDeque None t) (VList []) s) as [[v r']| |] eqn:P; try discriminate. cbn [rbind] in R.
  injection R as <- <-. apply (codec_any_bytes E (TDeque None t)) in P; [|exact ST|cbn; auto].
  destruct v; try contradiction. destruct P as [F _]. cbn [as_list]. split.
  - apply Forall_forall. intros x Hx. apply (fold_in eqv (fun v => v) insert OK) in Hx as [[]|Hx].
    now apply (proj1 (Forall_forall _ _) F).
  - apply (fold_stays_distinct eqv (fun v => v) insert OK SYM). exact I.
Qed.
(** As with ordered sets, what was in the object before stays *)
Theorem unordered_set_keeps_refuted E eqv insert t s l r old :
  table_ok eqv (fun v => v) insert -> uset_read E insert t old s = Ok (l, r) -> forall x, In x old -> In x l.
Proof.
  intros OK R x Hx. rewrite uset_read_deque in R. destruct (pread E (TDeque None t) (VList []) s) as [[v r']| |]; try discriminate.
  injection R as <- <-. now apply (fold_keeps eqv (fun v => v) insert OK).
Qed.

(** ** Maps *)
Lemma tuple_ty E k t l : Forall (is_pair E k t) l -> Forall (has_ty E (TTuple [k; t])) (map of_pair l) /\ map to_pair (map of_pair l) = l.
Proof.
  induction 1 as [|p l P F [IH1 IH2]]; [split; [constructor|reflexivity]|]. destruct p; try contradiction. cbn [map of_pair to_pair].
  rewrite IH2. split; [constructor; [|exact IH1]|reflexivity]. cbn. destruct P. auto.
Qed.
Theorem unordered_map_round_trip E eqv insert k t l rest :
  table_ok eqv pair_key insert -> wf_ty E k -> wf_ty E t -> Forall (is_pair E k t) l -> small (length l) -> distinct eqv pair_key l ->
  exists bs l', umap_write E k t l = Ok bs /\ umap_read E insert k t [] (bs ++ rest) = Ok (l', rest) /\ Permutation l l'.
Proof.
  intros OK Wk Wt F S D. destruct (tuple_ty E k t l F) as [F' B].
  assert (HT : has_ty E (TDeque None (TTuple [k; t])) (VList (map of_pair l))) by (cbn [has_ty]; rewrite map_length; auto).
  destruct (codec_write_total E _ _ HT) as (bs & Wr & _). exists bs, (fold_left insert l []).
  rewrite umap_write_deque by assumption. split; [exact Wr|]. rewrite umap_read_deque.
  rewrite (codec_round_trip E (TDeque None (TTuple [k; t])) (VList (map of_pair l)) (VList []) bs rest); [|cbn; auto|exact HT|reflexivity|exact Wr].
  cbn [rbind as_list]. rewrite B. split; [reflexivity|]. symmetry. apply (fold_distinct eqv pair_key insert OK l [] D). intros x y [].
Qed.
Theorem unordered_map_truncated E insert k t l a b :
  wf_ty E k -> wf_ty E t -> Forall (is_pair E k t) l -> small (length l) -> umap_write E k t l = Ok (a ++ b) -> b <> [] ->
  forall old, umap_read E insert k t old a = Throw EndOfFile.
Proof.
  intros Wk Wt F S Wr N old. rewrite umap_read_deque. rewrite umap_write_deque in Wr by assumption. destruct (tuple_ty E k t l F) as [F' _].
  rewrite (codec_truncated E (TDeque None (TTuple [k; t])) (VList (map of_pair l)) (VList []) a b); auto; [cbn; auto|cbn [has_ty]; rewrite map_length; auto|reflexivity].
Qed.
Theorem unordered_map_any_bytes E eqv insert k t s l r :
  table_ok eqv pair_key insert -> (forall a b, eqv a b = eqv b a) -> (forall c, strict (cmp E c)) -> wf_ty E k -> wf_ty E t ->
  umap_read E insert k t [] s = Ok (l, r) -> Forall (is_pair E k t) l /\ distinct eqv pair_key l.
Proof.
  intros OK SYM ST Wk Wt R. rewrite umap_read_deque in R.
  destruct (pread E (TDeque None (TTuple [k; t])) (VList []) s) as [[v r']| |] eqn:P; try discriminate. cbn [rbind] in R.
  injection R as <- <-. apply codec_any_bytes in P; [|exact ST|cbn; auto].
  destruct v; try contradiction. destruct P as [F _]. cbn [as_list]. split.
  - apply Forall_forall. intros x Hx. apply (fold_in eqv pair_key insert OK) in Hx as [[]|Hx].
    apply in_map_iff in Hx as (v & <- & Hv). apply (proj1 (Forall_forall _ _) F) in Hv.
    destruct v as [| | | | | | | |[|a [|b [|c q]]]]; cbn in Hv; try contradiction; try tauto.
    cbn. tauto.
  - apply (fold_stays_distinct eqv pair_key insert OK SYM). exact I.
Qed.

(** ** libstdc++ *)
Lemma before_bucket_perm hash nb key l x : Permutation (before_bucket hash nb key l x) (x :: l).
Proof.
  induction l as [|y l IH]; cbn [before_bucket]; [reflexivity|]. destruct (_ =? _); [reflexivity|].
  rewrite IH. apply perm_swap.
Qed.
(** What C88 requires of a table, the one of libstdc++ does *)
Theorem insert_std_ok eqv hash nb key : table_ok eqv key (insert_std eqv hash nb key).
Proof.
  intros l x. unfold insert_std. destruct (existsb (fun y => eqv (key y) (key x)) l) eqn:Ex.
  - split; [reflexivity|]. intros N. exfalso. apply N. now apply existsb_exists in Ex.
  - split; [intros Y; apply existsb_exists in Y; congruence|]. intros _.
    destruct (existsb (fun y => bucket hash nb key y =? _) l); [apply before_bucket_perm|reflexivity].
Qed.
(** std::hash of an int, and == *)
Definition int_hash (v : val) : Z := match v with VInt z => z mod 2 ^ 64 | _ => 0 end.
Definition int_eq (a b : val) : bool := match a, b with VInt x, VInt y => x =? y | _, _ => false end.
Definition std_ints : table := insert_std int_eq int_hash 13 (fun v => v).
(** Saving what has just been loaded gives another file: a set of the ints 1, 2, 3 *)
Theorem unordered_file_refuted E : exists l l' bs bs',
  l = fold_left std_ints [VInt 1; VInt 2; VInt 3] [] /\ uset_write E (TInt true 4) l = Ok bs
  /\ uset_read E std_ints (TInt true 4) [] bs = Ok (l', []) /\ uset_write E (TInt true 4) l' = Ok bs' /\ bs <> bs'.
Proof.
  exists [VInt 3; VInt 2; VInt 1], [VInt 1; VInt 2; VInt 3]. do 2 eexists.
  split; [reflexivity|]. split; [vm_compute; reflexivity|]. split; [vm_compute; reflexivity|]. split; [vm_compute; reflexivity|]. discriminate.
Qed.
Example unordered_demo E : exists bs, umap_write E (TInt true 4) (TInt true 4) [VPair (VInt 14) (VInt 7); VPair (VInt 1) (VInt 8)] = Ok bs
  /\ umap_read E (insert_std int_eq int_hash 13 pair_key) (TInt true 4) (TInt true 4) [] bs = Ok ([VPair (VInt 1) (VInt 8); VPair (VInt 14) (VInt 7)], []).
Proof. eexists. split; [vm_compute; reflexivity|]. vm_compute. reflexivity. Qed.
