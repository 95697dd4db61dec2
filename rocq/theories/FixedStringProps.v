(** Fixed strings, separators, hashes of strings and ranges of integers (C86). *)
From Verif Require Import Common FixedStringModel Crc64Model.
From Coq Require Import ZifyBool ZifyNat.

(** ** Specification: a fixed string is a string of characters *)
Definition text := list Z.
Definition tenv := nat -> option text.
Definition set_char (t : text) (i : nat) (c : Z) : text := firstn i t ++ c :: skipn (S i) t.
(** [None]: outside of the contract *)
Definition tstep (e : tenv) (o : fop) : option (tenv * fobs) :=
  match o with
  | FLit x arr => match arr with [] => None | _ => Some (upd e x (Some (removelast arr)), GUnit) end
  | FConcat x y z => match e y, e z with Some a, Some b => Some (upd e x (Some (a ++ b)), GUnit) | _, _ => None end
  | FCopy x y => match e y with Some a => Some (upd e x (Some a), GUnit) | None => None end
  | FSet x i c => match e x with
                  | Some a => if i <? length a then Some (upd e x (Some (set_char a i c)), GUnit) else None
                  | None => None
                  end
  | FGet x i => match e x with Some a => if i <? length a then Some (e, GChar (nth i a 0%Z)) else None | None => None end
  | FEq x y => match e x, e y with Some a, Some b => Some (e, GBool (if list_eq_dec Z.eq_dec a b then true else false)) | _, _ => None end
  | FNe x y => match e x, e y with Some a, Some b => Some (e, GBool (if list_eq_dec Z.eq_dec a b then false else true)) | _, _ => None end
  | FSize x => match e x with Some a => Some (e, GNat (length a)) | None => None end
  | FString x => match e x with Some a => Some (e, GStr a) | None => None end
  | FPrint x => match e x with Some a => Some (e, GStr a) | None => None end
  | FCStr x => match e x with
               | Some a => if in_dec Z.eq_dec 0%Z a then None else Some (e, GStr a)
               | None => None
               end
  end.
Fixpoint srun (e : tenv) (os : list fop) : option (list fobs) :=
  match os with
  | [] => Some []
  | o :: os => match tstep e o with
               | Some (e, v) => match srun e os with Some vs => Some (v :: vs) | None => None end
               | None => None
               end
  end.
Fixpoint join (sep : list Z) (items : list (list Z)) : list Z :=
  match items with [] => [] | [x] => x | x :: items => x ++ sep ++ join sep items end.

(** ** Arrays *)
Lemma ld_some a i c : nth_error a i = Some c -> ld a i = Ok c.
Proof. unfold ld. now intros ->. Qed.
Lemma set_nth_mid (a : list Z) x b c : set_nth (a ++ x :: b) (length a) c = a ++ c :: b.
Proof. induction a as [|y a IH]; cbn; [reflexivity|now rewrite IH]. Qed.
Lemma copy_loop_app f src done : forall rest pre old post,
  length old = length src ->
  copy_loop f (length src) (length done) (length pre) (done ++ src ++ rest) (pre ++ map f done ++ old ++ post)
  = Ok (pre ++ map f done ++ map f src ++ post).
Proof.
  revert done; induction src as [|c src IH]; intros done rest pre old post L; cbn [length copy_loop] in *.
  - destruct old; [reflexivity|discriminate].
  - destruct old as [|o old]; [discriminate|]. injection L as L.
    rewrite (ld_some _ _ c) by (rewrite nth_error_app2, Nat.sub_diag by lia; reflexivity). cbn [rbind].
    unfold sto, guard. replace (_ <? _) with true by (symmetry; apply Nat.ltb_lt; rewrite !app_length, map_length; cbn [length app]; rewrite ?app_length; lia).
    cbn [rbind].
    replace (set_nth _ _ _) with (pre ++ map f (done ++ [c]) ++ old ++ post).
    2: { rewrite map_app. cbn [map]. rewrite <- !app_assoc. cbn [app].
         rewrite (app_assoc pre (map f done) (o :: old ++ post)).
         replace (length pre + length done) with (length (pre ++ map f done)) by (rewrite app_length, map_length; reflexivity).
         rewrite set_nth_mid. now rewrite <- app_assoc. }
    replace (done ++ (c :: src) ++ rest) with ((done ++ [c]) ++ src ++ rest) by (rewrite <- app_assoc; reflexivity).
    replace (S (length done)) with (length (done ++ [c])) by (rewrite app_length; cbn; lia).
    rewrite IH by auto. rewrite map_app, <- !app_assoc. reflexivity.
Qed.
Lemma repeat_split n m : repeat 0%Z (n + m) = repeat 0%Z n ++ repeat 0%Z m.
Proof. apply repeat_app. Qed.
Lemma copy_whole f t c : copy_loop f (length t) 0 0 (t ++ [c]) (fs_zero (length t)) = Ok (map f t ++ [0%Z]).
Proof.
  unfold fs_zero. replace (S (length t)) with (length t + 1) by lia. rewrite repeat_split.
  exact (copy_loop_app f t [] [c] [] (repeat 0%Z (length t)) (repeat 0%Z 1) (repeat_length _ _)).
Qed.
Lemma size_app t c : fs_size (t ++ [c]) = length t.
Proof. unfold fs_size. rewrite app_length. cbn. lia. Qed.
Lemma fs_of_spec t c : fs_of (t ++ [c]) = Ok (t ++ [0%Z]).
Proof.
  unfold fs_of. replace (length (t ++ [c]) - 1) with (length t) by (rewrite app_length; cbn; lia).
  rewrite copy_whole. now rewrite map_id.
Qed.
Lemma fs_concat_spec a b x y : fs_concat (a ++ [x]) (b ++ [y]) = Ok ((a ++ b) ++ [0%Z]).
Proof.
  unfold fs_concat. rewrite !size_app. unfold fs_zero.
  replace (S (length a + length b)) with (length a + (length b + 1)) by lia. rewrite !repeat_split.
  pose proof (copy_loop_app (fun c => c) a [] [x] [] (repeat 0%Z (length a)) (repeat 0%Z (length b) ++ repeat 0%Z 1) (repeat_length _ _)) as H1.
  cbn [length app map] in H1. rewrite H1. cbn [rbind]. rewrite map_id.
  pose proof (copy_loop_app (fun c => c) b [] [y] a (repeat 0%Z (length b)) (repeat 0%Z 1) (repeat_length _ _)) as H2.
  cbn [length app map] in H2. cbn [app]. rewrite H2. cbn [map repeat app]. now rewrite map_id, app_assoc.
Qed.
Lemma loops_spec a : forall p q b x y, length p = length q -> p = q -> length a = length b ->
  eq_loop (length a) (length p) (p ++ a ++ [x]) (q ++ b ++ [y]) = Ok (if list_eq_dec Z.eq_dec a b then true else false)
  /\ ne_loop (length a) (length p) (p ++ a ++ [x]) (q ++ b ++ [y]) = Ok (if list_eq_dec Z.eq_dec a b then false else true).
Proof.
  induction a as [|c a IH]; intros p q b x y L E Lb; destruct b as [|d b]; try discriminate; cbn [length eq_loop ne_loop].
  - destruct (list_eq_dec Z.eq_dec [] []); [auto|congruence].
  - subst q. rewrite (ld_some (p ++ (c :: a) ++ [x]) _ c), (ld_some (p ++ (d :: b) ++ [y]) _ d) by (rewrite nth_error_app2, Nat.sub_diag by lia; reflexivity).
    cbn [rbind]. destruct (Z.eqb_spec c d) as [->|N].
    + replace (p ++ (d :: a) ++ [x]) with ((p ++ [d]) ++ a ++ [x]) by (rewrite <- app_assoc; reflexivity).
      replace (p ++ (d :: b) ++ [y]) with ((p ++ [d]) ++ b ++ [y]) by (rewrite <- app_assoc; reflexivity).
      replace (S (length p)) with (length (p ++ [d])) by (rewrite app_length; cbn; lia).
      injection Lb as Lb. destruct (IH (p ++ [d]) (p ++ [d]) b x y eq_refl eq_refl Lb) as [-> ->].
      destruct (list_eq_dec Z.eq_dec a b) as [->|N], (list_eq_dec Z.eq_dec (d :: _) (d :: b)); try congruence; auto.
    + destruct (list_eq_dec Z.eq_dec (c :: a) (d :: b)); [congruence|auto].
Qed.
Lemma eq_ne_spec a b x y :
  fs_eq (a ++ [x]) (b ++ [y]) = Ok (if list_eq_dec Z.eq_dec a b then true else false)
  /\ fs_ne (a ++ [x]) (b ++ [y]) = Ok (if list_eq_dec Z.eq_dec a b then false else true).
Proof.
  unfold fs_eq, fs_ne. rewrite !size_app. destruct (Nat.eqb_spec (length a) (length b)) as [E|N].
  - exact (loops_spec a [] [] b x y eq_refl eq_refl E).
  - destruct (list_eq_dec Z.eq_dec a b) as [->|]; [congruence|auto].
Qed.
Lemma string_spec t c : fs_string (t ++ [c]) = t.
Proof. unfold fs_string. rewrite size_app. rewrite firstn_app, Nat.sub_diag, firstn_all. cbn. apply app_nil_r. Qed.
Lemma scan_spec t : ~ In 0%Z t -> scan (t ++ [0%Z]) = Ok t.
Proof.
  induction t as [|c t IH]; intros N; [reflexivity|]. cbn [app scan].
  destruct (Z.eqb_spec c 0) as [->|]; [exfalso; apply N; now left|]. rewrite IH by (intros H; apply N; now right). reflexivity.
Qed.
Lemma set_spec t i c : i < length t -> fs_set (t ++ [0%Z]) i c = Ok (set_char t i c ++ [0%Z]).
Proof.
  intros L. unfold fs_set, sto, guard. replace (i <? _) with true by (symmetry; apply Nat.ltb_lt; rewrite app_length; lia).
  f_equal. unfold set_char. revert i L; induction t as [|d t IH]; intros [|i] L; cbn [length] in L; try lia; [reflexivity|].
  cbn [app set_nth firstn skipn]. rewrite IH by lia. reflexivity.
Qed.
Lemma get_spec t i : i < length t -> fs_get (t ++ [0%Z]) i = Ok (nth i t 0%Z).
Proof. intros L. apply ld_some. rewrite nth_error_app1 by lia. now apply nth_error_nth'. Qed.

(** ** Every program *)
Definition matches (e : fenv) (t : tenv) : Prop := forall x, e x = option_map (fun a => a ++ [0%Z]) (t x).
Lemma matches_upd e t x a : matches e t -> matches (upd e x (Some (a ++ [0%Z]))) (upd t x (Some a)).
Proof. intros M y. unfold upd. destruct (y =? x)%nat; [reflexivity|apply M]. Qed.
Lemma fget_spec e t x a : matches e t -> t x = Some a -> fget e x = Ok (a ++ [0%Z]).
Proof. intros M E. unfold fget. rewrite (M x), E. reflexivity. Qed.
Lemma step_spec e t o t' v : matches e t -> tstep t o = Some (t', v) -> exists e', fstep e o = Ok (e', v) /\ matches e' t'.
Proof.
  intros M. destruct o; cbn [tstep fstep].
  - intros H. assert (N : arr <> []) by (intros ->; discriminate).
    assert (H' : Some (upd t x (Some (removelast arr)), GUnit) = Some (t', v)) by (destruct arr; [congruence|exact H]).
    clear H. destruct (exists_last N) as (p & c & ->). rewrite removelast_last in H'. injection H' as <- <-.
    rewrite fs_of_spec. cbn [rbind]. eexists. split; [reflexivity|]. now apply matches_upd.
  - destruct (t y) as [a|] eqn:Ey; [|discriminate]. destruct (t z) as [b|] eqn:Ez; [|discriminate].
    intros H; injection H as <- <-. rewrite (fget_spec _ _ _ _ M Ey), (fget_spec _ _ _ _ M Ez). cbn [rbind].
    rewrite fs_concat_spec. cbn [rbind]. eexists. split; [reflexivity|]. now apply matches_upd.
  - destruct (t y) as [a|] eqn:Ey; [|discriminate]. intros H; injection H as <- <-.
    rewrite (fget_spec _ _ _ _ M Ey). cbn [rbind]. eexists. split; [reflexivity|]. now apply matches_upd.
  - destruct (t x) as [a|] eqn:Ey; [|discriminate]. destruct (Nat.ltb_spec i (length a)); [|discriminate].
    intros H'; injection H' as <- <-. rewrite (fget_spec _ _ _ _ M Ey). cbn [rbind].
    rewrite set_spec by assumption. cbn [rbind]. eexists. split; [reflexivity|]. now apply matches_upd.
  - destruct (t x) as [a|] eqn:Ey; [|discriminate]. destruct (Nat.ltb_spec i (length a)); [|discriminate].
    intros H'; injection H' as <- <-. rewrite (fget_spec _ _ _ _ M Ey). cbn [rbind].
    rewrite get_spec by assumption. cbn [rbind]. eauto.
  - destruct (t x) as [a|] eqn:Ex; [|discriminate]. destruct (t y) as [b|] eqn:Ey; [|discriminate].
    intros H; injection H as <- <-. rewrite (fget_spec _ _ _ _ M Ex), (fget_spec _ _ _ _ M Ey). cbn [rbind].
    rewrite (proj1 (eq_ne_spec a b _ _)). cbn [rbind]. eauto.
  - destruct (t x) as [a|] eqn:Ex; [|discriminate]. destruct (t y) as [b|] eqn:Ey; [|discriminate].
    intros H; injection H as <- <-. rewrite (fget_spec _ _ _ _ M Ex), (fget_spec _ _ _ _ M Ey). cbn [rbind].
    rewrite (proj2 (eq_ne_spec a b _ _)). cbn [rbind]. eauto.
  - destruct (t x) as [a|] eqn:Ex; [|discriminate]. intros H; injection H as <- <-. rewrite (fget_spec _ _ _ _ M Ex). cbn [rbind].
    rewrite size_app. eauto.
  - destruct (t x) as [a|] eqn:Ex; [|discriminate]. intros H; injection H as <- <-. rewrite (fget_spec _ _ _ _ M Ex). cbn [rbind].
    rewrite string_spec. eauto.
  - destruct (t x) as [a|] eqn:Ex; [|discriminate]. destruct (in_dec _ _ _) as [|N]; [discriminate|].
    intros H; injection H as <- <-. rewrite (fget_spec _ _ _ _ M Ex). cbn [rbind]. unfold fs_c_str.
    rewrite scan_spec by assumption. cbn [rbind]. eauto.
  - destruct (t x) as [a|] eqn:Ex; [|discriminate]. intros H; injection H as <- <-. rewrite (fget_spec _ _ _ _ M Ex). cbn [rbind].
    unfold fs_print. rewrite string_spec. eauto.
Qed.
(** Every program that stays within the sizes of its strings sees plain strings of characters *)
Theorem fixed_string_programs os vs : srun (fun _ => None) os = Some vs -> frun (fun _ => None) os = Ok vs.
Proof.
  assert (M : matches (fun _ => None) (fun _ => None)) by (intros x; reflexivity). revert M.
  generalize (fun _ : nat => @None fs) as e. generalize (fun _ : nat => @None text) as t. revert vs.
  induction os as [|o os IH]; intros vs t e M; cbn [srun frun]; [intros H; now injection H as <-|].
  destruct (tstep t o) as [[t' v]|] eqn:E; [|discriminate]. destruct (srun t' os) as [ws|] eqn:E'; [|discriminate].
  intros H; injection H as <-. destruct (step_spec _ _ _ _ _ M E) as (e' & -> & M'). cbn [rbind].
  now rewrite (IH _ _ _ M' E').
Qed.
(** operator[] lets the program overwrite the terminating zero; c_str() is then read past its end *)
Theorem fixed_string_terminator_refuted : exists os i, nth_error os 1 = Some (FSet 0 i 33%Z) /\ frun (fun _ => None) (firstn 2 os) = Ok [GUnit; GUnit]
  /\ frun (fun _ => None) os = UB.
Proof. exists [FLit 0 [97; 98; 0]%Z; FSet 0 2 33%Z; FCStr 0], 2. repeat split. Qed.

(** from_ascii keeps ASCII *)
Theorem from_ascii_ascii (t : list Z) : Forall (fun b => 0 <= b < 128)%Z t -> from_ascii (t ++ [0%Z]) = Ok (t ++ [0%Z]).
Proof.
  intros F. unfold from_ascii. replace (length (t ++ [0%Z]) - 1) with (length t) by (rewrite app_length; cbn; lia).
  rewrite copy_whole. do 2 f_equal. induction F as [|c t C F IH]; [reflexivity|]. cbn [map]. rewrite IH. f_equal.
  unfold char_of_byte. now replace (c <? 128)%Z with true by lia.
Qed.
(** and gives a negative character for every other byte *)
Theorem from_ascii_refuted : exists t, Forall (fun b => 0 <= b < 256)%Z t /\ exists s, from_ascii (t ++ [0%Z]) = Ok s /\ exists c, In c s /\ (c < 0)%Z.
Proof.
  exists [0xE9%Z]. split; [repeat constructor; lia|]. eexists. split; [reflexivity|]. exists (-23)%Z. split; [now left|lia].
Qed.

(** ** Separators *)
Lemma sep_loop_later items : forall out p, sep_first p = false ->
  sep_loop out p items = out ++ concat (map (fun x => sep_content p ++ x) items).
Proof.
  induction items as [|x items IH]; intros out p F; cbn [sep_loop map concat]; [now rewrite app_nil_r|].
  unfold sep_out. rewrite F. rewrite IH by assumption. now rewrite <- !app_assoc.
Qed.
Lemma join_cons sep x items : join sep (x :: items) = x ++ concat (map (fun y => sep ++ y) items).
Proof.
  revert x; induction items as [|y items IH]; intros x; [cbn; now rewrite app_nil_r|].
  change (join sep (x :: y :: items)) with (x ++ sep ++ join sep (y :: items)). rewrite IH.
  cbn [map concat]. now rewrite <- !app_assoc.
Qed.
Theorem separator_joins out s items : sep_loop out (sep_string s) items = out ++ join s items.
Proof.
  destruct items as [|x items]; [cbn; now rewrite app_nil_r|]. cbn [sep_loop sep_string sep_out sep_first sep_content].
  rewrite sep_loop_later by reflexivity. cbn [sep_content]. now rewrite join_cons, <- app_assoc.
Qed.
Theorem separator_char_joins out c items : sep_loop out (sep_char c) items = out ++ join [c; 32%Z] items.
Proof. exact (separator_joins out [c; 32%Z] items). Qed.

(** ** Hashes: a literal, a fixed string made of it and the same characters in a std::string or a
    std::string_view have one hash, whatever the hash is *)
Theorem fixed_hash_agrees {V} (hash : list Z -> V) t s : fs_of (t ++ [0%Z]) = Ok s ->
  hash_array hash (t ++ [0%Z]) = hash_string hash t /\ hash_fixed hash s = hash_string hash t.
Proof.
  rewrite fs_of_spec. intros H; injection H as <-. unfold hash_array, hash_fixed, hash_string. rewrite string_spec. split; [|reflexivity].
  f_equal. rewrite app_length. cbn [length]. replace (length t + 1 - 1) with (length t) by lia.
  rewrite firstn_app, Nat.sub_diag, firstn_all. cbn. apply app_nil_r.
Qed.
(** but the last element of an array that is not a literal does not count, whatever the hash is *)
Theorem fixed_hash_array_refuted {V} (hash : list Z -> V) : exists a b, a <> b /\ length a = length b /\ hash_array hash a = hash_array hash b.
Proof. exists [1; 2]%Z, [1; 3]%Z. repeat split. discriminate. Qed.

(** ** Ranges of integers *)
Lemma iota_in n : forall b x, In x (iota n b) <-> (b <= x < b + Z.of_nat n)%Z.
Proof.
  induction n as [|n IH]; intros b x; cbn [iota In]; [lia|]. rewrite IH. lia.
Qed.
Lemma iota_nth n : forall b i, i < n -> nth_error (iota n b) i = Some (b + Z.of_nat i)%Z.
Proof.
  induction n as [|n IH]; intros b [|i] L; try lia; cbn [iota nth_error]; [f_equal; lia|]. rewrite IH by lia. f_equal. lia.
Qed.
Lemma iota_length n : forall b, length (iota n b) = n.
Proof. induction n as [|n IH]; intros b; cbn; auto. Qed.
Theorem int_range_spec b e : (b <= e)%Z -> exists l, make_int_range b e = Ok l /\ Z.of_nat (length l) = (e - b)%Z
  /\ (forall x, In x l <-> (b <= x < e)%Z) /\ forall i, i < length l -> nth_error l i = Some (b + Z.of_nat i)%Z.
Proof.
  intros H. unfold make_int_range, guard. replace (b <=? e)%Z with true by lia. eexists. split; [reflexivity|].
  rewrite iota_length. split; [lia|]. split; [intros x; rewrite iota_in; lia|]. intros i L. now apply iota_nth.
Qed.
Theorem make_count_negative_refuted : exists e, make_count e = UB.
Proof. now exists (-1)%Z. Qed.

Example fixed_string_demo : frun (fun _ => None) [FLit 0 [97; 98; 0]%Z; FLit 1 [99; 0]%Z; FConcat 2 0 1; FSet 2 1 120%Z; FCStr 2; FEq 0 1; FNe 0 1; FSize 2; FGet 2 2]
  = Ok [GUnit; GUnit; GUnit; GUnit; GStr [97; 120; 99]; GBool false; GBool true; GNat 3; GChar 99]%Z.
Proof. reflexivity. Qed.
Example separator_demo : sep_loop [] (sep_char 44%Z) [[49]; [50]; [51]]%Z = [49; 44; 32; 50; 44; 32; 51]%Z.
Proof. reflexivity. Qed.
Example fixed_hash_demo : hash_array (int64_hash 0) [97; 98; 0]%Z = hash_string (int64_hash 0) [97; 98]%Z
  /\ hash_array (int64_hash 0) [97; 98; 0]%Z <> hash_string (int64_hash 0) [97; 99]%Z.
Proof. split; [reflexivity|]. vm_compute. discriminate. Qed.
Example int_range_demo : make_int_range 2 5 = Ok [2; 3; 4]%Z /\ make_count 0 = Ok [].
Proof. split; reflexivity. Qed.
