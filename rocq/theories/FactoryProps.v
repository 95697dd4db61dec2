(** Static factories (C62) and Assert::Throws (C63). *)
From Verif Require Import Common FactoryModel.

Lemma name_eqb_eq a : forall b, name_eqb a b = true <-> a = b.
Proof. induction a as [|x a IH]; intros [|y b]; cbn; try (split; congruence). rewrite andb_true_iff, IH, Z.eqb_eq. split; [intros [-> ->]; auto|intros E; injection E; auto]. Qed.
Lemma ptype_eqb_eq a b : ptype_eqb a b = true <-> a = b.
Proof.
  destruct a as [a1 a2 a3], b as [b1 b2 b3]. unfold ptype_eqb. cbn [base cst ref]. rewrite !andb_true_iff, Nat.eqb_eq, Bool.eqb_true_iff.
  split; [intros [[-> ->] H]; destruct a3, b3; cbn in H; congruence|intros E; injection E as -> -> ->; repeat split; now destruct b3].
Qed.
Lemma params_eqb_eq a : forall b, params_eqb a b = true <-> a = b.
Proof. induction a as [|x a IH]; intros [|y b]; cbn; try (split; congruence). rewrite andb_true_iff, IH, ptype_eqb_eq. split; [intros [-> ->]; auto|intros E; injection E; auto]. Qed.
Lemma ftype_eqb_eq a b : ftype_eqb a b = true <-> a = b.
Proof. destruct a as [a1 a2], b as [b1 b2]. unfold ftype_eqb. cbn [result params]. rewrite andb_true_iff, Nat.eqb_eq, params_eqb_eq. split; [intros [-> ->]; auto|intros E; injection E; auto]. Qed.

(** ** What is expected *)
(** A registered function: its signature, its name and itself. *)
Record entry := { e_result : nat; e_params : list ptype; e_name : name; e_func : nat }.
Definition registered (l : list entry) : chains := fold_left (fun c e => register c (e_result e) (e_params e) (e_name e) (e_func e)) l [].
(** An argument can be passed to a parameter. *)
Definition binds (a : argument) (p : ptype) : Prop :=
  abase a = base p /\
  match ref p with
  | NoRef => True
  | LRef => cst p = true \/ (lvalue a = true /\ aconst a = false)
  | RRef => lvalue a = false /\ (aconst a = true -> cst p = true)
  end.
(** Arguments of exactly the types of the parameters: rvalues for values, lvalues for
    references to lvalues with the same const. *)
Definition exact (a : argument) (p : ptype) : Prop :=
  abase a = base p /\
  match ref p with NoRef => lvalue a = false | LRef => lvalue a = true /\ aconst a = cst p | RRef => False end.

Lemma chain_push c t k u : chain (push_front c t k) u = if ftype_eqb t u then k :: chain c u else chain c u.
Proof.
  induction c as [|[w l] c IH]; cbn [push_front chain].
  - destruct (ftype_eqb t u); reflexivity.
  - destruct (ftype_eqb w t) eqn:E; cbn [chain].
    + apply ftype_eqb_eq in E. subst w. destruct (ftype_eqb t u); reflexivity.
    + destruct (ftype_eqb w u) eqn:E2; [|exact IH]. destruct (ftype_eqb t u) eqn:E3; auto. apply ftype_eqb_eq in E2, E3. subst. assert (ftype_eqb u u = true) by (now apply ftype_eqb_eq). congruence.
Qed.
Definition same_sig (e : entry) (t : ftype) : bool := ftype_eqb (fun_type (e_result e) (e_params e)) t.
Lemma chain_registered l t : chain (registered l) t = map (fun e => {| lname := e_name e; lvalue_ := e_func e |}) (filter (fun e => same_sig e t) (rev l)).
Proof.
  unfold registered. assert (G : forall c, chain (fold_left (fun c e => register c (e_result e) (e_params e) (e_name e) (e_func e)) l c) t =
    map (fun e => {| lname := e_name e; lvalue_ := e_func e |}) (filter (fun e => same_sig e t) (rev l)) ++ chain c t).
  { induction l as [|e l IH]; intros c; cbn [fold_left rev]; auto. rewrite IH. unfold register at 1. rewrite chain_push. rewrite filter_app, map_app, <- app_assoc. f_equal. cbn [filter]. unfold same_sig. destruct (ftype_eqb _ t); reflexivity. }
  rewrite G. cbn. apply app_nil_r.
Qed.
(** ** C62 *)
(** create calls a function that was registered with this name and whose parameters have
    exactly the deduced types, the last one of these, and throws if there is none. *)
Theorem factory_create l r n args :
  match create (registered l) r n args with
  | Ok f => exists a e b, l = a ++ e :: b /\ e_func e = f /\ e_name e = n /\ fun_type (e_result e) (e_params e) = fun_type r (map deduce args) /\
            forall x, In x b -> e_name x = n -> fun_type (e_result x) (e_params x) <> fun_type r (map deduce args)
  | Throw e => e = RuntimeError /\ forall x, In x l -> e_name x = n -> fun_type (e_result x) (e_params x) <> fun_type r (map deduce args)
  | UB => False
  end.
Proof.
  unfold create. set (t := fun_type r (map deduce args)). rewrite chain_registered.
  assert (G : match find (map (fun e => {| lname := e_name e; lvalue_ := e_func e |}) (filter (fun e => same_sig e t) (rev l))) n with
    | Some k => exists a e b, rev l = b ++ e :: a /\ e_func e = lvalue_ k /\ e_name e = n /\ same_sig e t = true /\ forall x, In x b -> e_name x = n -> same_sig x t = false
    | None => forall x, In x (rev l) -> e_name x = n -> same_sig x t = false end).
  { generalize (rev l). clear l. intros l. induction l as [|e l IH]; cbn [filter map find]; [intros x []|]. destruct (same_sig e t) eqn:E; cbn [map find lname].
    - destruct (name_eqb (e_name e) n) eqn:E2.
      + apply name_eqb_eq in E2. exists l, e, []. repeat split; auto. intros x [].
      + assert (e_name e <> n) by (intros X; apply name_eqb_eq in X; congruence). destruct (find _ n) as [k|].
        * destruct IH as (a & e' & b & -> & H1 & H2 & H3 & H4). exists a, e', (e :: b). repeat split; auto. intros x [<-|X] Y; [contradiction|auto].
        * intros x [<-|X] Y; [contradiction|auto].
    - destruct (find _ n) as [k|].
      + destruct IH as (a & e' & b & -> & H1 & H2 & H3 & H4). exists a, e', (e :: b). repeat split; auto. intros x [<-|X] Y; auto.
      + intros x [<-|X] Y; auto. }
  destruct (find _ n) as [k|].
  - destruct G as (a & e & b & G1 & G2 & G3 & G4 & G5). exists (rev a), e, (rev b). split; [|split; [auto|split; [auto|split]]].
    + rewrite <- (rev_involutive l), G1, rev_app_distr. cbn. now rewrite <- app_assoc.
    + now apply ftype_eqb_eq.
    + intros x Hx En Et. apply ftype_eqb_eq in Et. fold (same_sig x t) in Et. rewrite (G5 x) in Et; [discriminate|now apply in_rev|auto].
  - split; auto. intros x Hx En Et. apply ftype_eqb_eq in Et. fold (same_sig x t) in Et. rewrite (G x) in Et; [discriminate|now apply -> in_rev|auto].
Qed.
(** So a function whose name and signature are its own is called with arguments of exactly
    its types. *)
Theorem factory_exact_partial l e args : In e l -> (forall x, In x l -> e_name x = e_name e -> fun_type (e_result x) (e_params x) = fun_type (e_result e) (e_params e) -> x = e) ->
  Forall2 exact args (e_params e) -> create (registered l) (e_result e) (e_name e) args = Ok (e_func e).
Proof.
  intros Hi Hu Ha. pose proof (factory_create l (e_result e) (e_name e) args) as K.
  assert (T : fun_type (e_result e) (map deduce args) = fun_type (e_result e) (e_params e)).
  { unfold fun_type. f_equal. clear - Ha. induction Ha as [|a p args ps [E1 E2] Ha IH]; cbn [map]; auto. f_equal; auto. destruct a as [b c lv], p as [b' c' r]. unfold deduce, adjust. cbn in *. subst. destruct r; [subst; reflexivity|destruct E2; subst; reflexivity|contradiction]. }
  rewrite T in K. destruct (create _ _ _ _) as [f|x|]; [| |contradiction].
  - destruct K as (a & e' & b & -> & <- & En & Et & _). f_equal. f_equal. apply Hu; auto. apply in_or_app. right. now left.
  - destruct K as [_ K]. now destruct (K e Hi eq_refl).
Qed.
(** Violated: a function is not found if it takes a value and the argument is an lvalue; *)
Lemma lvalue_differs args ps i a p : nth_error args i = Some a -> nth_error ps i = Some p -> lvalue a = true -> ref p <> LRef -> map adjust ps <> map adjust (map deduce args).
Proof.
  intros Ha Hp Hl Hr E. assert (X : nth_error (map adjust ps) i = nth_error (map adjust (map deduce args)) i) by now rewrite E. rewrite map_map in X. rewrite (map_nth_error _ _ _ Hp) in X. rewrite (map_nth_error (fun x => adjust (deduce x)) _ _ Ha) in X.
  injection X as X. apply Hr. destruct a as [b c lv], p as [b' c' r]. cbn in *. subst lv. destruct r; auto; discriminate.
Qed.
(** for example CreateA(int) of the tests with a variable of type int, although it could be
    called with it. *)
Theorem factory_lvalue_refuted : exists l e args, In e l /\ (forall x, In x l -> e_name x = e_name e -> x = e) /\ Forall2 binds args (e_params e) /\
  create (registered l) (e_result e) (e_name e) args = Throw RuntimeError.
Proof.
  exists [{| e_result := 0; e_params := [{| base := 1; cst := false; ref := NoRef |}]; e_name := [97; 49]%Z; e_func := 7 |}]. eexists. exists [{| abase := 1; aconst := false; lvalue := true |}].
  split; [left; reflexivity|]. split; [intros x [<-|[]]; auto|]. split; [repeat constructor|]. reflexivity.
Qed.
(** It is so for every function with such a parameter. *)
Theorem factory_lvalue_never l r n args i a : nth_error args i = Some a -> lvalue a = true ->
  (forall e, In e l -> e_name e = n -> exists p, nth_error (e_params e) i = Some p /\ ref p <> LRef) -> create (registered l) r n args = Throw RuntimeError.
Proof.
  intros Ha Hl He. pose proof (factory_create l r n args) as K. destruct (create _ _ _ _) as [f|x|]; [|destruct K; congruence|contradiction].
  destruct K as (b & e & c & -> & _ & En & Et & _). destruct (He e ltac:(apply in_or_app; right; now left) En) as (p & Hp & Hr). exfalso. unfold fun_type in Et. injection Et as _ Et. eapply lvalue_differs; eauto.
Qed.
(** Violated: of two functions with the same name the one that happens to be registered later
    is called, without any diagnostic. *)
Theorem factory_duplicate_refuted : exists e1 e2 args, e_name e1 = e_name e2 /\ e_func e1 <> e_func e2 /\ Forall2 exact args (e_params e1) /\ Forall2 exact args (e_params e2) /\
  create (registered [e1; e2]) 0 (e_name e1) args = Ok (e_func e2) /\ create (registered [e2; e1]) 0 (e_name e1) args = Ok (e_func e1).
Proof.
  exists {| e_result := 0; e_params := []; e_name := [97]%Z; e_func := 1 |}, {| e_result := 0; e_params := []; e_name := [97]%Z; e_func := 2 |}, []. cbn. repeat split; auto; discriminate.
Qed.
(** The factories of StaticChainTest.cpp: a(), b(), c(), a1(int), b1(int) *)
Definition int_value := {| base := 1; cst := false; ref := NoRef |}.
Definition five := {| abase := 1; aconst := false; lvalue := false |}.
Definition test_entries := [{| e_result := 0; e_params := []; e_name := [97]%Z; e_func := 1 |}; {| e_result := 0; e_params := []; e_name := [99]%Z; e_func := 3 |};
  {| e_result := 0; e_params := [int_value]; e_name := [97; 49]%Z; e_func := 4 |}; {| e_result := 0; e_params := [int_value]; e_name := [98; 49]%Z; e_func := 5 |}].
Example factory_demo : create (registered test_entries) 0 [99]%Z [] = Ok 3 /\ create (registered test_entries) 0 [97; 49]%Z [five] = Ok 4 /\
  create (registered test_entries) 0 [99]%Z [five] = Throw RuntimeError /\ create (registered test_entries) 0 [100]%Z [] = Throw RuntimeError.
Proof. vm_compute. auto. Qed.

(** ** C63 *)
Section Throws.
Context {cls : Type} (derives : cls -> cls -> bool) (test_exception : cls).
(** If the expected class is not a base of TestException: the assertion holds if and only if
    an exception of that class is thrown, fails with a TestException if nothing is thrown,
    and lets any other exception pass. *)
Theorem throws_partial e func : derives test_exception e = false ->
  (throws derives test_exception e func = None <-> exists x, func = Some x /\ derives x e = true) /\
  (func = None -> throws derives test_exception e func = Some test_exception) /\
  (forall x, func = Some x -> derives x e = false -> throws derives test_exception e func = Some x).
Proof.
  intros H. unfold throws. split; [|split].
  - destruct func as [x|]; [destruct (derives x e) eqn:E|rewrite H]; split; try discriminate; eauto; intros (y & Y & Y2); try discriminate. injection Y as <-. congruence.
  - intros ->. now rewrite H.
  - intros x -> ->. reflexivity.
Qed.
End Throws.
(** The classes: std::exception, awl::Exception, awl::GeneralException, TestException and
    IoException (Exception.h:15, 39, 65; TestException.h:14; IoException.h:13) *)
Inductive exc := StdException | AwlException | AwlGeneral | TestExc | IoExc.
Definition bases (x : exc) : list exc :=
  match x with StdException => [] | AwlException => [StdException] | AwlGeneral => [AwlException; StdException] | TestExc => [AwlGeneral; AwlException; StdException] | IoExc => [AwlException; StdException] end.
Definition exc_eqb (a b : exc) : bool := match a, b with StdException, StdException | AwlException, AwlException | AwlGeneral, AwlGeneral | TestExc, TestExc | IoExc, IoExc => true | _, _ => false end.
Definition derived (x e : exc) : bool := exc_eqb x e || existsb (exc_eqb e) (bases x).
(** Violated: nothing is thrown, and the assertion that something is thrown holds, for each
    of the four bases of TestException. *)
Theorem throws_refuted : forall e, e <> IoExc -> throws derived TestExc e None = None.
Proof. intros [] H; try reflexivity. congruence. Qed.
Example throws_demo : throws derived TestExc IoExc (Some IoExc) = None /\ throws derived TestExc IoExc None = Some TestExc /\ throws derived TestExc IoExc (Some AwlGeneral) = Some AwlGeneral.
Proof. auto. Qed.
