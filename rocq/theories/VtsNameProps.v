(** What the type names of the version tolerant serialization tell apart.  The shapes are
    defined without names. *)
From Coq Require Import String Ascii ZifyBool.
From Verif Require Import Common CodecModel CodecSpec CodecProofs VtsModel.
Local Open Scope Z_scope.
Local Open Scope list_scope.
Local Notation length := List.length.

(** ** Shapes *)
Inductive shape :=
| SInt (bytes : nat)
| SOpt (s : shape)
| SArr (s : shape) (n : nat)
| SSeq (s : shape)
| SPair (a b : shape)
| SVar (l : list shape)
| SStruct.
Fixpoint shape_of (t : ty) : shape :=
  match t with
  | TInt _ w | TEnum _ w _ => SInt w
  | TBool => SInt 1
  | TTime _ => SInt 8
  | TStr w => SSeq (SInt w)
  | TOpt t => SOpt (shape_of t)
  | TArr n t => SArr (shape_of t) n
  | TVec t | TDeque _ t | TSet _ t => SSeq (shape_of t)
  | TMap _ k v => SSeq (SPair (shape_of k) (shape_of v))
  | TVar ts => SVar (map shape_of ts)
  | TStruct _ _ | TTuple _ => SStruct
  end.
(** A type that can be a field: tuples have no name *)
Fixpoint nameable (t : ty) : Prop :=
  match t with
  | TOpt t | TArr _ t | TVec t | TDeque _ t | TSet _ t => nameable t
  | TMap _ k v => nameable k /\ nameable v
  | TVar ts => (fix all l := match l with [] => True | t :: r => nameable t /\ all r end) ts
  | TTuple _ => False
  | _ => True
  end.

Section ShapeInd.
Context (P : shape -> Prop) (Hi : forall w, P (SInt w)) (Ho : forall s, P s -> P (SOpt s)) (Ha : forall s n, P s -> P (SArr s n)) (Hs : forall s, P s -> P (SSeq s))
  (Hp : forall a b, P a -> P b -> P (SPair a b)) (Hv : forall l, Forall P l -> P (SVar l)) (Ht : P SStruct).
Fixpoint shape_ind' (s : shape) : P s :=
  match s with
  | SInt w => Hi w | SOpt s => Ho s (shape_ind' s) | SArr s n => Ha s n (shape_ind' s) | SSeq s => Hs s (shape_ind' s)
  | SPair a b => Hp a b (shape_ind' a) (shape_ind' b)
  | SVar l => Hv l ((fix go l : Forall P l := match l with [] => Forall_nil P | s :: r => Forall_cons s (shape_ind' s) (go r) end) l)
  | SStruct => Ht
  end.
End ShapeInd.

(** ** Numbers can be read back *)
Definition decode (l : fname) : Z := fold_left (fun a c => 10 * a + (c - 48)) l 0.
Lemma digits_ok f : forall n, (n < f)%nat -> decode (digits f n) = Z.of_nat n /\ Forall (fun c => 48 <= c <= 57) (digits f n).
Proof.
  induction f as [|f IH]; intros n H; [lia|]. cbn [digits].
  assert (M : 0 <= Z.of_nat (n mod 10) < 10) by (pose proof (Nat.mod_upper_bound n 10); lia).
  destruct (Nat.ltb_spec n 10) as [L|L].
  - cbn [app]. split; [unfold decode; cbn [fold_left]; rewrite Nat.mod_small by lia; lia|]. constructor; [lia|constructor].
  - assert (D : (n / 10 < n)%nat) by (apply Nat.div_lt; lia). destruct (IH (n / 10)%nat ltac:(lia)) as [E F]. split.
    + unfold decode in *. rewrite fold_left_app, E. cbn [fold_left]. pose proof (Nat.div_mod_eq n 10). lia.
    + apply Forall_app. split; auto. constructor; [lia|constructor].
Qed.
Lemma digits_prefix a b x y r1 r2 : Forall (fun c => 48 <= c <= 57) a -> Forall (fun c => 48 <= c <= 57) b -> ~ 48 <= x <= 57 -> ~ 48 <= y <= 57 ->
  a ++ x :: r1 = b ++ y :: r2 -> a = b /\ r1 = r2.
Proof.
  intros Ha. revert b. induction Ha as [|c a Hc Ha IH]; intros b Hb Nx Ny Q; destruct Hb as [|d b Hd Hb]; cbn [app] in Q.
  - injection Q; auto.
  - injection Q as -> _. contradiction.
  - injection Q as -> _. contradiction.
  - injection Q as -> Q. destruct (IH b Hb Nx Ny Q) as [-> ->]. auto.
Qed.
Lemma number_prefix n m x y r1 r2 : ~ 48 <= x <= 57 -> ~ 48 <= y <= 57 -> number n ++ x :: r1 = number m ++ y :: r2 -> n = m /\ r1 = r2.
Proof.
  intros Nx Ny Q. destruct (digits_ok (S n) n ltac:(lia)) as [E1 F1]. destruct (digits_ok (S m) m ltac:(lia)) as [E2 F2].
  destruct (digits_prefix _ _ _ _ _ _ F1 F2 Nx Ny Q) as [D ->]. split; auto. apply Nat2Z.inj. rewrite <- E1, <- E2. unfold number in D. now rewrite D.
Qed.

(** ** The name of a shape *)
Fixpoint name_of (s : shape) : fname :=
  match s with
  | SInt w => int_name w
  | SOpt s => str "optional<" ++ name_of s ++ str ">"
  | SArr s n => str "array<" ++ name_of s ++ str ", " ++ number n ++ str ">"
  | SSeq s => str "sequence<" ++ name_of s ++ str ">"
  | SPair a b => str "pair<" ++ name_of a ++ str ", " ++ name_of b ++ str ">"
  | SVar l => str "variant<" ++ concat (map (fun s => name_of s ++ str ", ") l) ++ str ">"
  | SStruct => str "struct"
  end.
Lemma type_name_shape t : nameable t -> type_name t = name_of (shape_of t).
Proof.
  induction t using ty_ind'; cbn [nameable]; intros H'; cbn [type_name shape_of name_of]; try reflexivity; try (now rewrite IHt by auto); try contradiction.
  - destruct H' as [A B]. now rewrite IHt1, IHt2 by auto.
  - do 2 f_equal. rewrite map_map. f_equal. induction H as [|t ts Ht _ IH]; [reflexivity|]. destruct H' as [A B]. cbn [map]. rewrite Ht, IH by auto. reflexivity.
Qed.

Lemma name_first s : exists c r, name_of s = c :: r /\ c <> 62.
Proof. destruct s; (eexists _, _; split; [vm_compute str; cbn [app int_name]; reflexivity|]); discriminate. Qed.
(** Names can be read from the left: the codes are prefix-free. *)
Lemma name_prefix a : forall b r1 r2, name_of a ++ r1 = name_of b ++ r2 -> a = b /\ r1 = r2.
Proof.
  Ltac heads Q := unfold int_name in Q; vm_compute str in Q; rewrite <- ?app_assoc in Q; cbn [app] in Q.
  induction a using shape_ind'; intros b r1 r2 Q.
  - destruct b; cbn [name_of] in Q; heads Q; try discriminate. injection Q as Q.
    apply number_prefix in Q as [Q1 Q2]; try lia. injection Q2 as ->. split; auto. f_equal. lia.
  - destruct b; cbn [name_of] in Q; heads Q; try discriminate. injection Q as Q. apply IHa in Q as [-> Q]. injection Q as ->. auto.
  - destruct b; cbn [name_of] in Q; heads Q; try discriminate. injection Q as Q. apply IHa in Q as [-> Q]. injection Q as Q.
    apply number_prefix in Q as [-> ->]; try lia. auto.
  - destruct b; cbn [name_of] in Q; heads Q; try discriminate. injection Q as Q. apply IHa in Q as [-> Q]. injection Q as ->. auto.
  - destruct b; cbn [name_of] in Q; heads Q; try discriminate. injection Q as Q. apply IHa1 in Q as [-> Q]. injection Q as Q. apply IHa2 in Q as [-> Q]. injection Q as ->. auto.
  - destruct b as [| | | | |m|]; cbn [name_of] in Q; heads Q; try discriminate. injection Q as Q.
    enough (X : l = m /\ r1 = r2) by (destruct X as [-> ->]; auto).
    revert m Q. induction H as [|s l Hs _ IH]; intros [|u m] Q; cbn [map concat] in Q; heads Q.
    + injection Q; auto.
    + exfalso. destruct (name_first u) as (c & r & E & N). rewrite E in Q. injection Q as Q _. now rewrite Q in N.
    + exfalso. destruct (name_first s) as (c & r & E & N). rewrite E in Q. injection Q as Q _. contradiction.
    + apply Hs in Q as [-> Q]. injection Q as Q. apply IH in Q as [-> ->]. auto.
  - destruct b; cbn [name_of] in Q; heads Q; try discriminate. injection Q as ->. auto.
Qed.
(** C36: two types have one name exactly if they have one shape. *)
Theorem vts_name_is_shape t u : nameable t -> nameable u -> (type_name t = type_name u <-> shape_of t = shape_of u).
Proof.
  intros Ht Hu. rewrite (type_name_shape t Ht), (type_name_shape u Hu). split; [|congruence].
  intros Q. apply (name_prefix _ _ [] []). now rewrite !app_nil_r.
Qed.
Print Assumptions vts_name_is_shape.
Example name_demo : shape_of (TMap 0 (TStr 1) (TOpt (TInt true 4))) = SSeq (SPair (SSeq (SInt 1)) (SOpt (SInt 4))) /\
  type_name (TMap 0 (TStr 1) (TOpt (TInt true 4))) = str "sequence<pair<sequence<int8_t>, optional<int32_t>>>" /\
  type_name (TArr 12 (TInt false 2)) = str "array<int16_t, 12>" /\ type_name (TVar [TBool; TVec (TInt true 8)]) = str "variant<int8_t, sequence<int64_t>, >".
Proof. repeat split; vm_compute; reflexivity. Qed.
