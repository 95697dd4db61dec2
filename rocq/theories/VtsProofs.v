(** Proofs about the version tolerant serialization. *)
From Coq Require Import ZifyBool ZifyNat String.
From Verif Require Import Common Int2ArrayModel Int2ArrayProps CodecModel CodecSpec CodecProofs VtsModel VtsSpec.
Local Open Scope Z_scope.
Local Open Scope list_scope.
Local Notation length := List.length. Local Notation concat := List.concat.

Notation cache := (nat -> option (nat * list (option nat))).
Notation stream := (bytes * cache)%type.
Local Notation vraw := (VtsModel.vraw get_raw). Local Notation read_index := (VtsModel.read_index get_raw).

(** ** Names *)
Lemma fname_eqb_eq a b : fname_eqb a b = true <-> a = b.
Proof. unfold fname_eqb. destruct (list_eq_dec Z.eq_dec a b); split; congruence. Qed.
Lemma find_first_map {A B} (g : A -> B) p l : find_first p (map g l) = find_first (fun x => p (g x)) l.
Proof. induction l as [|x l IH]; [reflexivity|]. cbn. now rewrite IH. Qed.
Lemma find_first_ext {A} (p q : A -> bool) l : (forall x, p x = q x) -> find_first p l = find_first q l.
Proof. intros H. induction l as [|x l IH]; [reflexivity|]. cbn. now rewrite H, IH. Qed.
Lemma find_first_some {A} (p : A -> bool) l k : find_first p l = Some k -> exists x, nth_error l k = Some x /\ p x = true.
Proof.
  revert k. induction l as [|x l IH]; cbn; intros k H; [discriminate|]. destruct (p x) eqn:P.
  - injection H as <-. exists x. auto.
  - destruct (find_first p l) as [j|]; [|discriminate]. injection H as <-. now apply IH.
Qed.
Lemma find_first_in {A} (p : A -> bool) l x : In x l -> p x = true -> find_first p l <> None.
Proof.
  induction l as [|y l IH]; cbn; intros HI HP; [destruct HI|]. destruct (p y) eqn:P; [discriminate|]. destruct HI as [->|HI]; [congruence|].
  specialize (IH HI HP). destruct (find_first p l); [discriminate|congruence].
Qed.
Lemma ty_eqb_name a : forall b, ty_eqb a b = true -> type_name a = type_name b.
Proof.
  assert (L : forall ts us, Forall (fun a => forall b, ty_eqb a b = true -> type_name a = type_name b) ts ->
    (fix list_eqb l m := match l, m with [], [] => true | x :: l, y :: m => ty_eqb x y && list_eqb l m | _, _ => false end) ts us = true -> map type_name ts = map type_name us).
  { intros ts us H. revert us. induction H as [|t ts Ht Hts IH]; intros [|u us] E; try discriminate; [reflexivity|]. cbn [map]. apply andb_prop in E as [E1 E2]. f_equal; auto. }
  induction a using ty_ind'; intros b E; destruct b; try discriminate; cbn [ty_eqb type_name] in *; repeat (apply andb_prop in E as [E ?]);
    repeat match goal with H : Nat.eqb _ _ = true |- _ => apply Nat.eqb_eq in H; subst end; auto;
    try (erewrite IHa by eauto; reflexivity).
  - erewrite IHa1, IHa2 by eauto. reflexivity.
  - apply L in E; auto. f_equal. f_equal. replace (fun t => type_name t ++ str ", "%string) with (fun t => (fun n => n ++ str ", "%string) (type_name t)) by reflexivity.
    rewrite <- (map_map type_name (fun n => n ++ str ", "%string)), E, map_map. reflexivity.
Qed.
Lemma ty_eqb_refl a : ty_eqb a a = true.
Proof.
  induction a using ty_ind'; cbn [ty_eqb]; rewrite ?Nat.eqb_refl, ?Bool.eqb_reflx, ?Z.eqb_refl, ?IHa, ?IHa1, ?IHa2; auto.
  - destruct c; auto. now rewrite Z.eqb_refl.
  - destruct c; auto. now rewrite Nat.eqb_refl.
  - induction H as [|t ts Ht Hts IH]; [reflexivity|]. now rewrite Ht, IH.
  - induction H as [|t ts Ht Hts IH]; [reflexivity|]. now rewrite Ht, IH.
Qed.

(** ** Streams with a cache *)
Section Lift.
Definition lift {A} (c : cache) (x : res (A * bytes)) : res (A * stream) := let* (a, r) := x in Ok (a, (r, c)).
Lemma vraw_lift n s c : vraw n (s, c) = lift c (get_raw n s).
Proof. unfold vraw, lift. cbn [fst snd]. reflexivity. Qed.
Lemma get_int_lift sg w s c : get_int vraw sg w (s, c) = lift c (get_int get_raw sg w s).
Proof. unfold get_int. rewrite vraw_lift. unfold lift. destruct (get_raw w s) as [[b r]| |]; reflexivity. Qed.
Lemma get_bits_lift f : forall n s c, get_bits vraw f n (s, c) = lift c (get_bits get_raw f n s).
Proof.
  induction f as [|f IH]; intros [|n] s c; try reflexivity.
  change (get_bits vraw (S f) (S n) (s, c)) with
    (let* (a, s1) := get_int vraw false 1 (s, c) in let* (l, s2) := get_bits vraw f (S n - 8) s1 in
     Ok (map (fun i => Z.testbit a (Z.of_nat i)) (seq 0 (Nat.min 8 (S n))) ++ l, s2)).
  change (get_bits get_raw (S f) (S n) s) with
    (let* (a, s1) := get_int get_raw false 1 s in let* (l, s2) := get_bits get_raw f (S n - 8) s1 in
     Ok (map (fun i => Z.testbit a (Z.of_nat i)) (seq 0 (Nat.min 8 (S n))) ++ l, s2)).
  rewrite get_int_lift. destruct (get_int get_raw false 1 s) as [[a s1]| |]; cbn [lift rbind]; try reflexivity.
  rewrite IH. destruct (get_bits get_raw f (S n - 8) s1) as [[l s2]| |]; reflexivity.
Qed.
End Lift.

Section Main.
Context (E : env) (O N : schema) (rename : nat -> fname -> fname) (type_map : fname -> fname) (rho : nat -> nat).
Context (Hidx : indexable O) (HclN : closed N) (Hknown : known_types O N type_map).

Definition old_field (f : fname * ty) : pfield := (fst f, if is_struct (snd f) then None else known_type N type_map (snd f)).
Definition old_protos : list proto := map (map old_field) (structs O).
Definition fmap (i : nat) : list (option nat) :=
  match map_protos N rename (rho i) (nth i old_protos []) (new_proto N (nth (rho i) (structs N) [])) with Ok m => m | _ => [] end.
Definition inv (c : cache) : Prop := forall i, c i = None \/ c i = Some (rho i, fmap i).

Notation skip := (skip get_raw E N rename true old_protos). Notation hook f := (hook get_raw N rename true old_protos (skip f)).
Notation read f := (CodecModel.read E vraw (hook f)). Notation mig := (mig E N rename type_map rho).
Notation write := (CodecModel.write E struct_index).

(** [r] reads [v] from [bs] and leaves the rest. *)
Definition RD {A} (f : nat) (r : stream -> res (A * stream)) (v : A) (bs : bytes) : Prop :=
  forall rest c, inv c -> (length (bs ++ rest) <= f)%nat -> exists c', inv c' /\ r (bs ++ rest, c) = Ok (v, (rest, c')).
Definition SK (o : option nat) (f : nat) (bs : bytes) : Prop :=
  forall rest c, inv c -> (length (bs ++ rest) < f)%nat -> exists c', inv c' /\ skip f o (bs ++ rest, c) = Ok (rest, c').

Lemma RD_bind {A B} f (r : stream -> res (A * stream)) (k : A -> stream -> res (B * stream)) v w b1 b2 :
  RD f r v b1 -> RD f (k v) w b2 -> RD f (fun s => let* (x, s1) := r s in k x s1) w (b1 ++ b2).
Proof.
  intros H1 H2 rest c I L. rewrite <- app_assoc in *. destruct (H1 _ c I L) as (c1 & I1 & E1).
  destruct (H2 rest c1 I1) as (c2 & I2 & E2); [rewrite app_length in L; lia|]. exists c2. split; auto. rewrite E1. cbn [rbind]. exact E2.
Qed.
Lemma RD_ret {A} f (v : A) : RD f (fun s => Ok (v, s)) v [].
Proof. intros rest c I _. exists c. auto. Qed.
Lemma RD_map {A B} f (r : stream -> res (A * stream)) (g : A -> B) v bs : RD f r v bs -> RD f (fun s => let* (x, s1) := r s in Ok (g x, s1)) (g v) bs.
Proof. intros H. rewrite <- (app_nil_r bs). apply (RD_bind f r (fun x s1 => Ok (g x, s1)) v); auto. apply RD_ret. Qed.
Lemma RD_int f sg w z : (0 < w)%nat -> range sg w z -> RD f (get_int vraw sg w) z (put_int w z).
Proof. intros Hw R rest c I L. exists c. split; auto. rewrite get_int_lift, get_put_int by auto. reflexivity. Qed.
Lemma RD_size f n : small n -> RD f (get_size vraw) (Z.of_nat n) (put_size n).
Proof. intros H rest c I L. exists c. split; auto. unfold get_size. rewrite get_int_lift. fold (get_size get_raw (put_size n ++ rest)). now rewrite get_put_size. Qed.
Lemma RD_byte f b : 0 <= b < 256 -> RD f (get_int vraw false 1) b [b].
Proof. intros H rest c I L. exists c. split; auto. rewrite get_int_lift. cbn [app]. now rewrite get_byte. Qed.
Lemma RD_bits f l : RD f (get_bits vraw (length l) (length l)) l (put_bits (length l) l).
Proof. intros rest c I L. exists c. split; auto. rewrite get_bits_lift, get_put_bits by lia. reflexivity. Qed.
Lemma RD_ext {A} f (r r' : stream -> res (A * stream)) v bs : (forall s, r s = r' s) -> RD f r v bs -> RD f r' v bs.
Proof. intros H R rest c I L. destruct (R rest c I L) as (c' & I' & EQ). exists c'. now rewrite <- H. Qed.

Lemma RD_list f (w : writer) (r : reader stream) (P : val -> val -> val -> Prop) :
  (forall x d y bs, P x d y -> w x = Ok bs -> RD f (r d) y bs) ->
  forall l1 ds l2 bs, all3 P l1 ds l2 -> put_list w l1 = Ok bs -> RD f (get_list r ds) l2 bs.
Proof.
  intros H l1. induction l1 as [|x l1 IH]; intros [|d ds] [|y l2] bs A W; cbn [all3] in A; try contradiction; cbn [put_list get_list] in *.
  - apply ok_inj in W; subst bs. apply RD_ret.
  - destruct A as [A1 A2]. destruct (w x) as [a| |] eqn:Ea; cbn [rbind] in W; try discriminate.
    destruct (put_list w l1) as [b| |] eqn:Eb; cbn [rbind] in W; try discriminate. apply ok_inj in W; subst bs.
    apply (RD_bind f (r d) (fun v s1 => let* (l, s2) := get_list r ds s1 in Ok (v :: l, s2)) y); [eauto|].
    apply (RD_map f (get_list r ds) (cons y)). eauto.
Qed.
Lemma RD_add f (w : writer) (r : stream -> res (val * stream)) add (Q : list val -> Prop) (P : val -> val -> Prop) :
  (forall x y bs, P x y -> w x = Ok bs -> RD f r y bs) ->
  (forall acc v l, Q (acc ++ v :: l) -> add acc v = acc ++ [v]) ->
  forall l1 l2 acc bs, all2 P l1 l2 -> Q (acc ++ l2) -> put_list w l1 = Ok bs -> RD f (get_add r add (length l1) acc) (acc ++ l2) bs.
Proof.
  intros H HA l1. induction l1 as [|x l1 IH]; intros [|y l2] acc bs A HQ W; cbn [all2] in A; try contradiction; cbn [put_list get_add length] in *.
  - apply ok_inj in W; subst bs. rewrite app_nil_r. apply RD_ret.
  - destruct A as [A1 A2]. destruct (w x) as [a| |] eqn:Ea; cbn [rbind] in W; try discriminate.
    destruct (put_list w l1) as [b| |] eqn:Eb; cbn [rbind] in W; try discriminate. apply ok_inj in W; subst bs.
    apply (RD_bind f r (fun v s1 => get_add r add (length l1) (add acc v) s1) y); [eauto|].
    rewrite (HA acc y l2 HQ). replace (acc ++ y :: l2) with ((acc ++ [y]) ++ l2) in * by now rewrite <- app_assoc. apply IH; auto.
Qed.

(** *** Field maps *)
Lemma index_new n fs : find_first (fun g : pfield => fname_eqb (fst g) n) (new_proto N fs) = index_of n fs.
Proof. unfold new_proto, index_of. now rewrite find_first_map. Qed.
Lemma name_new t k : field_type N t = Some k -> exists u, nth_error (ftypes N) k = Some u /\ type_name u = type_name t.
Proof.
  intros H. assert (F : find_first (ty_eqb t) (ftypes N) = Some k) by (destruct t; auto; discriminate).
  apply find_first_some in F as (u & Hu & Q). exists u. split; auto. symmetry. now apply ty_eqb_name.
Qed.
Lemma name_old t k : known_type N type_map t = Some k -> exists u, nth_error (ftypes N) k = Some u /\ type_name u = type_map (type_name t).
Proof. intros H. apply find_first_some in H as (u & Hu & Q). exists u. split; auto. now apply fname_eqb_eq. Qed.
Lemma field_type_known fs f : In fs (structs N) -> In f fs -> is_struct (snd f) = false -> exists k, field_type N (snd f) = Some k.
Proof.
  intros H1 H2 H3. pose proof (HclN _ _ H1 H2 H3) as HI. pose proof (find_first_in (ty_eqb (snd f)) _ _ HI (ty_eqb_refl _)) as X.
  unfold field_type. destruct (snd f); try discriminate; destruct (find_first _ _); eauto; congruence.
Qed.
Definition type_eq (o : option nat) (t : ty) : Prop :=
  match o, field_type N t with Some a, Some b => types_equal N a b = Ok true | None, None => True | _, _ => False end.
Lemma same_name_eq fs1 f fs2 g : In fs1 (structs O) -> In f fs1 -> In fs2 (structs N) -> In g fs2 -> same_name type_map (snd f) (snd g) ->
  type_eq (snd (old_field f)) (snd g).
Proof.
  intros H1 H2 H3 H4 [S1 S2]. unfold type_eq, old_field. cbn [snd]. destruct (is_struct (snd f)) eqn:Es.
  - destruct (snd g); try discriminate. exact I.
  - symmetry in S1. destruct (field_type_known _ _ H3 H4 S1) as [k Hk]. rewrite Hk. destruct (known_type N type_map (snd f)) as [a|] eqn:Ha; [|now apply (Hknown _ _ H1 H2)].
    unfold types_equal. destruct (Nat.eqb a k); [reflexivity|]. apply name_old in Ha as (u & Hu & Nu). apply name_new in Hk as (w & Hw & Nw).
    unfold name_at. rewrite Hu, Hw. cbn [rbind]. f_equal. apply fname_eqb_eq. congruence.
Qed.
Lemma type_eq_compatible o t : type_eq o t -> check_compatible N o (field_type N t) = Ok tt.
Proof. unfold type_eq, check_compatible. destruct o, (field_type N t); try contradiction; auto. intros ->. reflexivity. Qed.

(** *** One structure *)
Section OneStruct.
Context (s1 : nat) (fs1 fs2 : list (fname * ty)) (ds l2 : list val) (rds : list (reader stream)) (f0 : nat).
Let s2 := rho s1.
Let idx (f : fname * ty) : option nat := index_of (rename s2 (fst f)) fs2.
Context (HO : nth_error (structs O) s1 = Some fs1) (HN : nth_error (structs N) s2 = Some fs2).
Context (Hl2 : length l2 = length fs2) (Hds : length ds = length fs2) (Hrd : length rds = length fs2).
(** How an old field is read. *)
Definition field_ok (f : fname * ty) (x : val) : Prop :=
  forall b, write (snd f) x = Ok b ->
  match idx f with
  | Some j => exists t e y rd, nth_error (map snd fs2) j = Some t /\ nth_error ds j = Some e /\ nth_error l2 j = Some y /\ nth_error rds j = Some rd /\
                               type_eq (snd (old_field f)) t /\ RD f0 (rd e) y b
  | None => SK (snd (old_field f)) f0 b
  end.

Lemma new_proto_at j t : nth_error (map snd fs2) j = Some t -> snd (nth j (new_proto N fs2) ([], None)) = field_type N t.
Proof.
  intros H. unfold new_proto. rewrite nth_error_map in H. destruct (nth_error fs2 j) as [g|] eqn:G; [|discriminate]. injection H as <-.
  rewrite (@nth_indep _ _ _ _ (fst g, field_type N (snd g))). 2:{ rewrite map_length. apply nth_error_Some. congruence. }
  rewrite (map_nth (fun f => (fst f, field_type N (snd f))) fs2 g j). cbn [snd]. now rewrite (nth_error_nth _ _ _ G).
Qed.
Lemma idx_inj f g j : idx f = Some j -> idx g = Some j -> rename s2 (fst f) = rename s2 (fst g).
Proof.
  unfold idx, index_of. intros H1 H2. apply find_first_some in H1 as (a & A1 & A2). apply find_first_some in H2 as (b & B1 & B2).
  apply fname_eqb_eq in A2, B2. congruence.
Qed.
Lemma read_mapped_ok : forall fs l bs cur, all2 field_ok fs l -> NoDup (map (fun f => rename s2 (fst f)) fs) ->
  put_each (map (fun f => write (snd f)) fs) l = Ok bs -> length cur = length fs2 ->
  (forall f j, In f fs -> idx f = Some j -> nth_error cur j = nth_error ds j) ->
  forall rest c, inv c -> (length (bs ++ rest) < f0)%nat ->
  exists cur' c', inv c' /\ read_mapped N true (skip f0) s2 rds (combine (map old_field fs) (map idx fs)) cur (bs ++ rest, c) = Ok (cur', (rest, c')) /\
    length cur' = length fs2 /\ (forall f j, In f fs -> idx f = Some j -> nth_error cur' j = nth_error l2 j) /\
    (forall j, (forall f, In f fs -> idx f <> Some j) -> nth_error cur' j = nth_error cur j).
Proof.
  induction fs as [|f fs IH]; intros [|x l] bs cur A ND W Lc Hc rest c I L; cbn [all2 map put_each combine read_mapped] in *; try contradiction.
  - apply ok_inj in W; subst bs. exists cur, c. repeat split; auto. intros f j [].
  - destruct A as [A1 A2]. destruct (write (snd f) x) as [b1| |] eqn:E1; cbn [rbind] in W; try discriminate.
    destruct (put_each _ l) as [b2| |] eqn:E2; cbn [rbind] in W; try discriminate. apply ok_inj in W; subst bs.
    specialize (A1 b1 E1). inversion ND as [|? ? ND1 ND2]; subst. rewrite <- app_assoc in *.
    assert (Lr : (length (b2 ++ rest) < f0)%nat) by (rewrite app_length in L; lia).
    destruct (idx f) as [j|] eqn:Ej.
    + destruct A1 as (t & e & y & rd & Ht & He & Hy & Hrdj & HT & HR).
      assert (Hj : (j < length fs2)%nat) by (rewrite <- Hl2; apply nth_error_Some; congruence).
      unfold old_field at 1. replace (nth s2 (structs N) []) with fs2 by (symmetry; now apply nth_error_nth).
      rewrite (new_proto_at j t Ht).
      assert (EQ : match snd (old_field f) with Some a => match field_type N t with Some b => types_equal N a b | None => UB end
                   | None => match field_type N t with Some _ => UB | None => Ok true end end = Ok true).
      { unfold type_eq in HT. destruct (snd (old_field f)), (field_type N t); try contradiction; auto. }
      unfold old_field in EQ. cbn [snd] in EQ. cbv zeta. rewrite EQ. cbn [rbind negb]. rewrite Hrdj.
      assert (Hcur : nth j cur VNone = e).
      { apply nth_error_nth. rewrite (Hc f j); auto. now left. }
      rewrite Hcur. destruct (HR (b2 ++ rest) c I) as (c1 & I1 & R1); [lia|]. rewrite R1. cbn [rbind].
      destruct (IH l b2 (set_nth cur j y) A2 ND2 E2) with (rest := rest) (c := c1) as (cur' & c' & I' & R' & Lc' & K1 & K2); auto.
      * now rewrite set_nth_length.
      * intros g k Hg Hk. rewrite nth_error_set_nth_neq; [apply (Hc g); auto; now right|]. intros ->.
        apply ND1. apply in_map_iff. exists g. split; auto. symmetry. eapply idx_inj; eauto.
      * exists cur', c'. repeat split; auto.
        -- intros g k [<-|Hg] Hk; [|eauto]. rewrite Ej in Hk. injection Hk as <-.
           rewrite (K2 j); [rewrite nth_error_set_nth_eq; congruence|]. intros g Hg Hk. apply ND1. apply in_map_iff. exists g. split; auto. symmetry. eapply idx_inj; eauto.
        -- intros k Hk. rewrite (K2 k) by (intros g Hg; apply Hk; now right). apply nth_error_set_nth_neq. intros ->. apply (Hk f); auto. now left.
    + destruct (A1 (b2 ++ rest) c I L) as (c1 & I1 & R1). unfold old_field at 1. cbv iota. unfold old_field in R1. cbn [snd] in R1. rewrite R1. cbn [rbind].
      destruct (IH l b2 cur A2 ND2 E2 Lc) with (rest := rest) (c := c1) as (cur' & c' & I' & R' & Lc' & K1 & K2); auto.
      * intros g k Hg. apply Hc. now right.
      * exists cur', c'. repeat split; auto.
        -- intros g k [<-|Hg] Hk; [congruence|eauto].
        -- intros k Hk. apply K2. intros g Hg. apply Hk. now right.
Qed.
Lemma nth_error_eq {A} (a b : list A) : (forall j, nth_error a j = nth_error b j) -> a = b.
Proof.
  revert b. induction a as [|x a IH]; intros [|y b] H; auto; try (specialize (H 0%nat); discriminate).
  f_equal; [specialize (H 0%nat); cbn in H; congruence|]. apply IH. intros j. exact (H (S j)).
Qed.
(** Equal prototypes *)
Lemma get_each_ok : forall fs l bs k, all2 field_ok fs l -> map idx fs = map Some (seq k (length fs)) ->
  put_each (map (fun f => write (snd f)) fs) l = Ok bs -> (k + length fs = length fs2)%nat -> RD f0 (get_each (skipn k rds) (skipn k ds)) (skipn k l2) bs.
Proof.
  assert (SN : forall A (l : list A) k x, nth_error l k = Some x -> skipn k l = x :: skipn (S k) l).
  { intros A l. induction l as [|y l IH]; intros [|k] x H; cbn in H; try discriminate; [injection H as ->; reflexivity|]. cbn [skipn]. rewrite (IH k x H). reflexivity. }
  induction fs as [|f fs IH]; intros [|x l] bs k A M W L; cbn [all2 map put_each length seq] in *; try contradiction.
  - apply ok_inj in W; subst bs. rewrite !skipn_all2 by lia. cbn [get_each]. apply RD_ret.
  - injection M as Mk M. destruct A as [A1 A2]. destruct (write (snd f) x) as [b1| |] eqn:E1; cbn [rbind] in W; try discriminate.
    destruct (put_each _ l) as [b2| |] eqn:E2; cbn [rbind] in W; try discriminate. apply ok_inj in W; subst bs.
    specialize (A1 b1 E1). rewrite Mk in A1. destruct A1 as (t & e & y & rd & Ht & He & Hy & Hrdj & HT & HR).
    rewrite (SN _ rds k rd), (SN _ ds k e), (SN _ l2 k y) by auto. cbn [get_each hd tl].
    apply (RD_bind f0 (rd e) (fun v s1 => let* (l, s2) := get_each (skipn (S k) rds) (skipn (S k) ds) s1 in Ok (v :: l, s2)) y); auto.
    apply (RD_map f0 _ (cons y)). apply IH with l; auto. lia.
Qed.
Lemma mapM_fields fs l : (forall f, In f fs -> In f fs1) -> (forall f x, In (f, x) (combine fs l) -> exists b, write (snd f) x = Ok b) -> all2 field_ok fs l ->
  mapM (map_field N rename s2 (new_proto N fs2)) (map old_field fs) = Ok (map idx fs).
Proof.
  revert l. induction fs as [|f fs IH]; intros [|x l] Hin Hw A; cbn [all2] in A; try contradiction; [reflexivity|]. destruct A as [A1 A2].
  cbn [map mapM]. destruct (Hw f x (or_introl eq_refl)) as [b Eb]. specialize (A1 b Eb).
  assert (MF : map_field N rename s2 (new_proto N fs2) (old_field f) = Ok (idx f)).
  { unfold map_field. rewrite index_new. change (fst (old_field f)) with (fst f). fold (idx f). destruct (idx f) as [j|]; [|reflexivity].
    destruct A1 as (t & e & y & rd & Ht & _ & _ & _ & HT & _). rewrite (new_proto_at j t Ht), type_eq_compatible; auto. }
  rewrite MF. cbn [rbind]. rewrite (IH l); auto.
  - intros g Hg. apply Hin. now right.
  - intros g z Hg. apply Hw. now right.
Qed.
Lemma put_each_in (fs : list (fname * ty)) l bs : put_each (map (fun f => write (snd f)) fs) l = Ok bs ->
  forall f x, In (f, x) (combine fs l) -> exists b, write (snd f) x = Ok b.
Proof.
  revert l bs. induction fs as [|g fs IH]; intros [|y l] bs W f x HI; cbn [map put_each combine] in *; try contradiction.
  destruct (write (snd g) y) as [b1| |] eqn:E1; cbn [rbind] in W; try discriminate. destruct (put_each _ l) as [b2| |] eqn:E2; cbn [rbind] in W; try discriminate.
  destruct HI as [HI|HI]; [injection HI as <- <-; eauto|eauto].
Qed.
Lemma find_map_ok c m : inv c -> map_protos N rename s2 (map old_field fs1) (new_proto N fs2) = Ok m ->
  exists c', inv c' /\ find_map N rename old_protos s2 s1 c = Ok (m, c').
Proof.
  intros I M. unfold find_map.
  assert (HM : map_protos N rename s2 (nth s1 old_protos []) (new_proto N (nth s2 (structs N) [])) = Ok m).
  { unfold old_protos. rewrite (nth_error_nth _ _ [] HN). erewrite (nth_error_nth (map (map old_field) (structs O))); [exact M|]. now rewrite nth_error_map, HO. }
  assert (HF : fmap s1 = m) by (unfold fmap; fold s2; now rewrite HM).
  destruct (I s1) as [-> | ->].
  - rewrite HM. cbn [rbind]. exists (upd c s1 (Some (s2, m))). split; [|reflexivity]. intros i. unfold upd. destruct (Nat.eqb_spec i s1) as [->|_]; [|apply I].
    right. now rewrite HF.
  - fold s2. rewrite Nat.eqb_refl, HF. eauto.
Qed.
Lemma RD_index f : RD f (read_index old_protos) s1 (struct_index s1).
Proof.
  clear -Hidx HO. assert (Hs : (s1 < length (structs O))%nat) by (apply nth_error_Some; congruence). destruct Hidx as [Hi _].
  unfold read_index, struct_index. rewrite <- (app_nil_r (put_int 2 _)).
  apply (RD_bind f (get_int vraw false 2) (fun z r => if Z.of_nat (length old_protos) <=? z then UB else Ok (Z.to_nat z, r)) (Z.of_nat s1)).
  - apply RD_int; [lia|]. unfold range. change (8 * Z.of_nat 2) with 16. lia.
  - unfold old_protos. rewrite map_length. replace (Z.of_nat (length (structs O)) <=? Z.of_nat s1) with false by lia. rewrite Nat2Z.id. apply RD_ret.
Qed.
Lemma hook_ok l bs : all2 field_ok fs1 l -> NoDup (map (fun f => rename s2 (fst f)) fs1) -> (fs1 = [] -> fs2 = []) ->
  (forall j, (forall f, In f fs1 -> idx f <> Some j) -> nth_error l2 j = nth_error ds j) ->
  put_each (map (fun f => write (snd f)) fs1) l = Ok bs -> RD f0 (hook f0 s2 rds ds) l2 (struct_index s1 ++ bs).
Proof.
  intros A ND Hne Hkeep W rest c I L. rewrite <- app_assoc in *.
  destruct (RD_index f0 (bs ++ rest) c I L) as (c1 & I1 & R1). unfold VtsModel.hook. rewrite R1. cbn [rbind snd fst].
  pose proof (mapM_fields fs1 l ltac:(auto) (put_each_in _ _ _ W) A) as MM.
  set (m := if trivial_map (map idx fs1) (map old_field fs1) (new_proto N fs2) then [] else map idx fs1).
  destruct (find_map_ok c1 m I1) as (c2 & I2 & R2). { unfold map_protos. rewrite MM. reflexivity. }
  rewrite R2. cbn [rbind]. assert (Lt : (length (bs ++ rest) < f0)%nat).
  { rewrite app_length in L. unfold struct_index in L. rewrite put_int_length in L. lia. }
  assert (K : m = [] \/ m = map idx fs1 /\ m <> []) by (destruct m eqn:Em; [auto|right; split; [|discriminate]]; unfold m in Em; destruct (trivial_map _ _ _); congruence).
  destruct K as [K|[K1 K2]].
  - rewrite K.
    assert (T : length fs1 = length fs2 /\ map idx fs1 = map Some (seq 0 (length fs1))).
    { unfold m in K. destruct (trivial_map _ _ _) eqn:T.
      - unfold trivial_map in T. apply andb_prop in T as [T1 T2]. apply Nat.eqb_eq in T1. unfold new_proto in T1. rewrite !map_length in T1.
        split; auto. destruct (list_eq_dec _ _ _) as [EQ|]; [|discriminate]. now rewrite map_length in EQ.
      - apply map_eq_nil in K. rewrite K. rewrite (Hne K). auto. }
    destruct T as [T1 T2]. destruct (get_each_ok fs1 l bs 0 A T2 W T1 rest c2 I2) as (c3 & I3 & R3); [lia|]. exists c3. split; auto.
  - destruct m as [|o m'] eqn:Em; [congruence|]. cbv zeta. rewrite K1.
    replace (nth s1 old_protos []) with (map old_field fs1) by (symmetry; apply nth_error_nth; unfold old_protos; now rewrite nth_error_map, HO).
    destruct (read_mapped_ok fs1 l bs ds A ND W) with (rest := rest) (c := c2) as (cur & c3 & I3 & R3 & Lc & H1 & H2); auto.
    exists c3. split; auto. rewrite R3. f_equal. f_equal. apply nth_error_eq. intros j.
    assert (D : (exists f, In f fs1 /\ idx f = Some j) \/ (forall f, In f fs1 -> idx f <> Some j)).
    { clear. induction fs1 as [|f fs IH]; [right; intros f []|]. destruct (idx f) as [k|] eqn:Ek.
      - destruct (Nat.eq_dec k j) as [->|NE]; [left; exists f; split; [now left|auto]|]. destruct IH as [(g & G1 & G2)|IH]; [left; exists g; split; [now right|auto]|].
        right. intros g [<-|G]; [congruence|auto].
      - destruct IH as [(g & G1 & G2)|IH]; [left; exists g; split; [now right|auto]|]. right. intros g [<-|G]; [congruence|auto]. }
    destruct D as [(f & F1 & F2)|D]; [eauto|]. rewrite (H2 j D). symmetry. auto.
Qed.
End OneStruct.

Definition otype (t : ty) : option nat := if is_struct t then None else known_type N type_map t.
Definition READS (t1 : ty) : Prop := forall v1 t2 d v2 bs f, mig t1 v1 (Some (t2, d, v2)) -> write t1 v1 = Ok bs -> RD f (read f t2 d) v2 bs.
Definition SKIPS (t1 : ty) : Prop := forall v1 bs f, mig t1 v1 None -> write t1 v1 = Ok bs -> SK (otype t1) f bs.

Lemma mig_skip t1 v1 : is_struct t1 = false -> mig t1 v1 None ->
  exists k t2 v2, known_type N type_map t1 = Some k /\ nth_error (ftypes N) k = Some t2 /\ mig t1 v1 (Some (t2, default E t2, v2)).
Proof. destruct t1; intros H M; try discriminate; exact M. Qed.
Lemma reads_skips t1 : is_struct t1 = false -> READS t1 -> SKIPS t1.
Proof.
  intros Hs H v1 bs f M W rest c I L. destruct (mig_skip _ _ Hs M) as (k & t2 & v2 & K1 & K2 & K3). unfold otype. rewrite Hs, K1.
  destruct f as [|f]; [lia|]. cbn [VtsModel.skip]. rewrite K2. destruct (H _ _ _ _ _ f K3 W rest c I) as (c' & I' & R); [lia|]. exists c'. split; auto. rewrite R. reflexivity.
Qed.
(** Leaves are read as without a Reader. *)
Definition leaf (t : ty) : bool := match t with TInt _ _ | TBool | TEnum _ _ _ | TStr _ | TTime _ => true | _ => false end.
Lemma read_leaf f t old s c : leaf t = true -> read f t old (s, c) = lift c (pread E t old s).
Proof.
  assert (GL : forall cw olds s c, get_list (fun _ s => let* (z, r) := get_int vraw false cw s in Ok (VInt z, r)) olds (s, c) =
    lift c (get_list (fun _ s => let* (z, r) := get_int get_raw false cw s in Ok (VInt z, r)) olds s)).
  { intros cw olds. induction olds as [|o olds IH]; intros s' c'; [reflexivity|]. cbn [get_list]. rewrite get_int_lift.
    destruct (get_int get_raw false cw s') as [[z r]| |]; cbn [lift rbind]; try reflexivity. rewrite IH. destruct (get_list _ olds r) as [[l r']| |]; reflexivity. }
  destruct t; try discriminate; intros _; unfold pread; cbn [CodecModel.read]; unfold get_size; rewrite get_int_lift; destruct (get_int get_raw _ _ s) as [[z r]| |]; try reflexivity.
  - cbn [lift rbind]. destruct (bad_enum count z); reflexivity.
  - cbn [lift rbind]. destruct (over_limit E _); [reflexivity|]. destruct (negb (alloc_ok E z)); [reflexivity|]. rewrite GL. destruct (get_list _ _ r) as [[l r']| |]; reflexivity.
Qed.
Lemma leaf_rt t v old bs f : leaf t = true -> in_schema O t -> has_ty E t v -> write t v = Ok bs -> RD f (read f t old) v bs.
Proof.
  intros Hl Hi Ht W rest c I L. exists c. split; auto. rewrite read_leaf by auto.
  assert (R : pread E t old (bs ++ rest) = Ok (v, rest)).
  { apply (read_write E (fun _ => []) plain_struct (fun _ => True)); try (destruct t; try discriminate; exact Logic.I).
    - intros sid rds olds b r l _ _ G. exact G.
    - destruct t; try discriminate; cbn in *; auto.
    - exact Ht.
    - rewrite <- W. destruct t; try discriminate; reflexivity. }
  now rewrite R.
Qed.
Lemma elems_ok a b f (l1 ds l2 : list val) bs : READS a -> all3 (fun x d y => mig a x (Some (b, d, y))) l1 ds l2 ->
  put_elems a (write a) l1 = Ok bs -> RD f (get_elems vraw b (read f b) ds) l2 bs.
Proof.
  intros H A W. destruct l1 as [|x l1'].
  - destruct ds, l2; try contradiction. assert (bs = []) as -> by (destruct a; cbn in W; congruence). destruct b; apply RD_ret.
  - set (l1 := x :: l1') in *. destruct (match a with TBool => true | _ => false end) eqn:B.
    + destruct a; try discriminate. assert (b = TBool) as -> by (destruct ds, l2; try contradiction; apply A).
      assert (K : l2 = l1 /\ length ds = length l1 /\ Forall (has_ty E TBool) l1).
      { clear -A. clearbody l1. revert ds l2 A. induction l1 as [|v l IH]; intros [|d ds] [|y l2] A; try contradiction; [auto|].
        cbn [all3] in A. destruct A as [(_ & A1 & A1') A2]. destruct (IH _ _ A2) as (K1 & K2 & K). subst. cbn [length]. rewrite K2. auto. }
      destruct K as (-> & Ld & K). cbn [put_elems] in W. apply ok_inj in W; subst bs. unfold get_elems. rewrite Ld.
      assert (R : RD f (fun s => let* (l, s1) := get_bits vraw (length (map as_bool l1)) (length (map as_bool l1)) s in Ok (map VBool l, s1))
                       (map VBool (map as_bool l1)) (put_bits (length (map as_bool l1)) (map as_bool l1))) by apply (RD_map f _ (map VBool)), RD_bits.
      rewrite (as_bool_list E l1 K) in R. now rewrite map_length in R.
    + assert (Na : a <> TBool) by (intros ->; discriminate).
      assert (Nb : b <> TBool).
      { intros ->. destruct ds as [|d ds], l2 as [|y l2]; try contradiction. destruct A as [A _]. destruct a; cbn in A; try contradiction; try discriminate; destruct A; discriminate. }
      rewrite put_elems_eq in W by auto. apply (RD_ext f (get_list (read f b) ds)); [intros s; destruct b; try reflexivity; congruence|].
      eapply (RD_list f (write a) (read f b) (fun x d y => mig a x (Some (b, d, y)))); eauto.
Qed.
Lemma all2_length {A B} (p : A -> B -> Prop) l m : all2 p l m -> length l = length m.
Proof. revert m. induction l as [|x l IH]; intros [|y m] H; cbn in *; try tauto. f_equal. now apply IH. Qed.
Lemma all3_default a b l1 l2 : all2 (fun x y => mig a x (Some (b, default E b, y))) l1 l2 ->
  all3 (fun x d y => mig a x (Some (b, d, y))) l1 (repeat (default E b) (length l1)) l2.
Proof. revert l2. induction l1 as [|x l1 IH]; intros [|y l2] H; cbn in *; try contradiction; [exact Logic.I|]. destruct H. split; auto. Qed.

Lemma fields_all2 (P : fname * ty -> val -> Prop) fs : forall l,
  (fix fields (fs : list (fname * ty)) (l : list val) : Prop := match fs, l with [], [] => True | f :: fs, x :: l => P f x /\ fields fs l | _, _ => False end) fs l -> all2 P fs l.
Proof. induction fs as [|f fs IH]; intros [|x l] H; try contradiction; [exact Logic.I|]. destruct H. split; auto. Qed.
Lemma all2_impl {A B} (P Q : A -> B -> Prop) l : forall m, (forall x y, In x l -> P x y -> Q x y) -> all2 P l m -> all2 Q l m.
Proof. induction l as [|x l IH]; intros [|y m] H A2; try contradiction; [exact Logic.I|]. destruct A2. split; [apply H; auto; now left|]. apply IH; auto. intros; apply H; auto. now right. Qed.

Lemma skip_all_ok fs : (forall f, In f fs -> SKIPS (snd f)) -> forall l bs g, all2 (fun f x => mig (snd f) x None) fs l ->
  put_each (map (fun f => write (snd f)) fs) l = Ok bs ->
  forall rest c, inv c -> (length (bs ++ rest) < g)%nat -> exists c', inv c' /\ skip_all (skip g) (map old_field fs) (bs ++ rest, c) = Ok (rest, c').
Proof.
  induction fs as [|f fs IH]; intros H [|x l] bs g A W rest c I L; cbn [all2 map put_each skip_all] in *; try contradiction.
  - apply ok_inj in W; subst bs. eauto.
  - destruct A as [A1 A2]. destruct (write (snd f) x) as [b1| |] eqn:E1; cbn [rbind] in W; try discriminate.
    destruct (put_each _ l) as [b2| |] eqn:E2; cbn [rbind] in W; try discriminate. apply ok_inj in W; subst bs. rewrite <- app_assoc in *.
    destruct (H f (or_introl eq_refl) x b1 g A1 E1 (b2 ++ rest) c I L) as (c1 & I1 & R1). change (snd (old_field f)) with (otype (snd f)). rewrite R1. cbn [rbind].
    eapply IH; eauto.
    + intros; apply H. now right.
    + rewrite app_length in L. lia.
Qed.

Theorem reads_ok t1 : in_schema O t1 -> READS t1 /\ SKIPS t1.
Proof.
  assert (RS : forall t, is_struct t = false -> READS t -> READS t /\ SKIPS t) by (intros; split; auto using reads_skips).
  induction t1 using ty_ind'; intros HI; try (apply RS; [reflexivity|]); cbn [in_schema] in HI.
  1-5: intros v1 t2 d v2 bs f M W; destruct M as (-> & HT & ->); apply leaf_rt; auto.
  - (* optional *) destruct (IHt1 HI) as [IH _]. intros v1 t2 d v2 bs f M W. destruct t2; try contradiction. destruct M as [-> M].
    destruct v1, v2; try contradiction; cbn [CodecModel.write CodecModel.read] in *.
    + apply ok_inj in W; subst bs. change [0] with ([0] ++ []).
      eapply (RD_bind f (get_int vraw false 1) (fun z r => if z =? 0 then Ok (VNone, r) else _) 0); [apply RD_byte; lia|]. apply RD_ret.
    + destruct (write t1 v1) as [b| |] eqn:Eb; cbn [rbind] in W; try discriminate. apply ok_inj in W; subst bs. change (1 :: b) with ([1] ++ b).
      apply (RD_bind f (get_int vraw false 1) (fun z r => if z =? 0 then Ok (VNone, r) else let* (v, r1) := read f t2 (default E t2) r in Ok (VSome v, r1)) 1); [apply RD_byte; lia|].
      cbn [Z.eqb]. apply (RD_map f _ VSome). eauto.
  - (* array *) destruct (IHt1 HI) as [IH _]. intros v1 t2 d v2 bs f M W. destruct t2; try contradiction. destruct v1, v2; try contradiction. destruct M as [-> M].
    cbn [CodecModel.write CodecModel.read] in *. apply (RD_map f _ VList). eapply elems_ok; eauto.
  - (* vector *) destruct (IHt1 HI) as [IH _]. intros v1 t2 d v2 bs f M W. destruct t2; try contradiction. destruct v1, v2; try contradiction. destruct M as (Hd & [Hn Ha] & M).
    cbn [CodecModel.write CodecModel.read] in *. destruct (put_elems t1 (write t1) l) as [b| |] eqn:Eb; cbn [rbind] in W; try discriminate. apply ok_inj in W; subst bs.
    apply (RD_bind f (get_size vraw) (fun n r => if negb (alloc_ok E n) then Throw LogicError
      else let* (l, r1) := get_elems vraw t2 (read f t2) (resize (Z.to_nat n) (default E t2) (as_list d)) r in Ok (VList l, r1)) (Z.of_nat (length l))); [now apply RD_size|].
    rewrite Ha. cbn [negb]. rewrite Nat2Z.id, Hd. unfold resize. rewrite firstn_nil. cbn [app length]. rewrite Nat.sub_0_r.
    apply (RD_map f _ VList). eapply elems_ok; eauto. now apply all3_default.
  - (* deque *) destruct (IHt1 HI) as [IH _]. intros v1 t2 d v2 bs f M W. destruct t2; try contradiction. destruct v1, v2; try contradiction. destruct M as (Hd & Hn & Hc & M).
    cbn [CodecModel.write CodecModel.read] in *. destruct (put_list (write t1) l) as [b| |] eqn:Eb; cbn [rbind] in W; try discriminate. apply ok_inj in W; subst bs.
    apply (RD_bind f (get_size vraw) (fun n r => let* (l, r1) := get_add (read f t2 (default E t2)) (deque_push cap) (Z.to_nat n) (as_list d) r in Ok (VList l, r1)) (Z.of_nat (length l))); [now apply RD_size|].
    rewrite Nat2Z.id, Hd. apply (RD_map f _ VList).
    apply (RD_add f (write t1) _ _ (fun l => match cap with Some c => (length l <= c)%nat | None => True end) (fun x y => mig t1 x (Some (t2, default E t2, y)))) with (acc := []); eauto.
    + intros acc v l' Q. unfold deque_push. destruct cap as [cp|]; [|reflexivity]. rewrite app_length in Q. cbn [length] in Q. now replace (length acc <? cp)%nat with true by lia.
    + cbn [app]. now rewrite <- (all2_length _ _ _ M).
  - (* set *) destruct (IHt1 HI) as [IH _]. intros v1 t2 d v2 bs f M W. destruct t2; try contradiction. destruct v1, v2; try contradiction. destruct M as (Hd & Hn & Ho & M).
    cbn [CodecModel.write CodecModel.read] in *. destruct (put_list (write t1) l) as [b| |] eqn:Eb; cbn [rbind] in W; try discriminate. apply ok_inj in W; subst bs.
    apply (RD_bind f (get_size vraw) (fun n r => let* (l, r1) := get_add (read f t2 (default E t2)) (set_insert (cmp E c0) (fun v => v)) (Z.to_nat n) (as_list d) r in Ok (VList l, r1)) (Z.of_nat (length l))); [now apply RD_size|].
    rewrite Nat2Z.id, Hd. apply (RD_map f _ VList).
    apply (RD_add f (write t1) _ _ (ordered (cmp E c0) (fun v => v)) (fun x y => mig t1 x (Some (t2, default E t2, y)))) with (acc := []); eauto.
    intros acc v l' Q. apply set_insert_end. intros y Hy. eapply (ordered_mid _ (fun v => v)); eauto.
  - (* map *) destruct HI as [HI1 HI2]. destruct (IHt1_1 HI1) as [IH1 _]. destruct (IHt1_2 HI2) as [IH2 _].
    intros v1 t2 d v2 bs f M W. destruct t2; try contradiction. destruct v1, v2; try contradiction. destruct M as (Hd & Hn & Ho & M).
    cbn [CodecModel.write CodecModel.read] in *. destruct (put_list _ l) as [b| |] eqn:Eb; cbn [rbind] in W; try discriminate. apply ok_inj in W; subst bs.
    apply (RD_bind f (get_size vraw) (fun n r => let* (l, r1) := get_add (fun s => let* (x, s1) := read f t2_1 (default E t2_1) s in let* (y, s2) := read f t2_2 (default E t2_2) s1 in Ok (VPair x y, s2))
      (set_insert (cmp E c0) pair_key) (Z.to_nat n) (as_list d) r in Ok (VList l, r1)) (Z.of_nat (length l))); [now apply RD_size|].
    rewrite Nat2Z.id, Hd. apply (RD_map f _ VList).
    eapply (RD_add f _ _ _ (ordered (cmp E c0) pair_key)) with (acc := []); [| |exact M|exact Ho|exact Eb].
    + intros x y bs Hxy Wx. destruct x, y; try contradiction. destruct Hxy as [Hk Hv]. destruct (write t1_1 x1) as [b1| |] eqn:E1; cbn [rbind] in Wx; try discriminate.
      destruct (write t1_2 x2) as [b2| |] eqn:E2; cbn [rbind] in Wx; try discriminate. apply ok_inj in Wx; subst bs.
      apply (RD_bind f (read f t2_1 (default E t2_1)) (fun x s1 => let* (y, s2) := read f t2_2 (default E t2_2) s1 in Ok (VPair x y, s2)) y1); [eauto|].
      apply (RD_map f _ (VPair y1)). eauto.
    + intros acc v l' Q. apply set_insert_end. intros y Hy. eapply ordered_mid; eauto.
  - (* variant *) destruct HI as [HI _]. intros v1 t2 d v2 bs f M W. destruct t2 as [| | | | | | | | | | |us| |]; try contradiction. destruct v1 as [| | | | | | |i x|], v2 as [| | | | | | |j y|]; try contradiction. destruct M as (<- & Hn & M).
    destruct (nth_error us i) as [u|] eqn:Eu; [|contradiction]. destruct (nth_error (map mig ts) i) as [m|] eqn:Em; [|contradiction].
    rewrite nth_error_map in Em. destruct (nth_error ts i) as [t|] eqn:Et; [|discriminate]. injection Em as <-.
    cbn [CodecModel.write CodecModel.read] in *. rewrite nth_error_map, Et in W. cbn [option_map] in W. destruct (write t x) as [b| |] eqn:Eb; cbn [rbind] in W; try discriminate. apply ok_inj in W; subst bs.
    assert (Hi : (i < length us)%nat) by (apply nth_error_Some; congruence). pose proof (nth_error_In _ _ Et) as It.
    apply (RD_bind f (get_size vraw) (fun n r => if Z.of_nat (length us) <=? n then UB else
      match nth_error (map (fun t => read f t (default E t)) us) (Z.to_nat n) with Some rd => let* (v, r1) := rd r in Ok (VVar (Z.to_nat n) v, r1) | None => UB end) (Z.of_nat i));
      [apply RD_size; unfold small in *; lia|].
    replace (Z.of_nat (length us) <=? Z.of_nat i) with false by lia. rewrite Nat2Z.id, nth_error_map, Eu. cbn [option_map].
    apply (RD_map f _ (VVar i)). eapply Forall_forall in H; [|eauto]. eapply H; eauto. eapply (in_all (in_schema O)); eauto.
  - (* tuple *) intros v1 t2 d v2 bs f M W. destruct M.
  - (* struct *) destruct HI as [HO HI].
    assert (IHs : forall f, In f fs -> READS (snd f) /\ SKIPS (snd f)).
    { intros f Hf. eapply Forall_forall in H; [|eauto]. apply H. rewrite (map_snd (in_schema O)) in HI. eapply (in_all (in_schema O)); eauto. now apply in_map. }
    split.
    + intros v1 t2 d v2 bs f M W. destruct t2 as [| | | | | | | | | | | | |s2 fs2]; try contradiction. destruct v1 as [| | | | | | | |l1], v2 as [| | | | | | | |l2]; try contradiction.
      destruct M as (<- & HN & Hne & ND & Ll2 & Ld & HF & Hk). apply fields_all2 in HF.
      cbn [CodecModel.write CodecModel.read] in *. destruct (put_each _ l1) as [b| |] eqn:Eb; cbn [rbind] in W; try discriminate. apply ok_inj in W; subst bs.
      apply (RD_map f _ VTup). apply (hook_ok sid fs fs2 (as_list d) l2 (map (fun f0 => read f (snd f0)) fs2) f HO HN Ll2 Ld (map_length _ _) l1 b); auto.
      eapply all2_impl; [|exact HF]. intros g x Hg HX b' Wb. cbn beta in HX. destruct (index_of (rename (rho sid) (fst g)) fs2) as [j|].
      * destruct HX as (t & e & y & X1 & X2 & X3 & X4 & X5). exists t, e, y, (read f t). rewrite nth_error_map in X1 |- *. destruct (nth_error fs2 j) as [h|] eqn:Eh; [|discriminate]. injection X1 as <-.
        rewrite nth_error_map, Eh. repeat (split; [auto; fail|]). split.
        -- eapply same_name_eq; eauto using nth_error_In.
        -- apply (proj1 (IHs g Hg)) with (v1 := x); auto.
      * apply (proj2 (IHs g Hg)) with (v1 := x); auto.
    + intros v1 bs f M W. destruct v1 as [| | | | | | | |l1]; try contradiction. cbn [VtsSpec.mig] in M. apply (fields_all2 (fun f x => mig (snd f) x None)) in M.
      cbn [CodecModel.write] in W. destruct (put_each _ l1) as [b| |] eqn:Eb; cbn [rbind] in W; try discriminate. apply ok_inj in W; subst bs.
      intros rest c I L. rewrite <- app_assoc in *. destruct f as [|f]; [lia|]. cbn [otype is_struct VtsModel.skip].
      assert (RI : RD (S f) (read_index old_protos) sid (struct_index sid)) by (eapply RD_index; eauto).
      destruct (RI (b ++ rest) c I) as (c1 & I1 & R1); [lia|]. rewrite R1. cbn [rbind].
      replace (nth sid old_protos []) with (map old_field fs) by (symmetry; apply nth_error_nth; unfold old_protos; now rewrite nth_error_map, HO).
      eapply skip_all_ok; eauto. { intros g Hg. apply IHs; auto. } rewrite app_length in L. unfold struct_index in L. rewrite put_int_length in L. lia.
Qed.
End Main.
