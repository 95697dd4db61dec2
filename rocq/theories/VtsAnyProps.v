(** Any version of a program reads the data of any other version: it throws, or it
    consumes exactly what was written, and nothing is undefined.  Mismatches of types are
    found wherever in the data they are. *)
From Coq Require Import ZifyBool ZifyNat String.
From Verif Require Import Common Int2ArrayModel CodecModel CodecSpec CodecProofs CodecProps VtsModel VtsSpec VtsProofs VtsEvolve VtsProps VtsNameProps VtsAnySpec VtsAnyProofs.
Local Open Scope Z_scope.
Local Open Scope list_scope.
Local Notation length := List.length.

Section Props.
Context (E : env) (O N : schema) (rename : nat -> fname -> fname) (type_map : fname -> fname) (allow_delete : bool).
Context (HP : program E O) (HclN : closed N) (HR : readable E N) (HF : faithful O N type_map) (Hne : forall fs, In fs (structs O) -> fs <> []).
Notation vread := (vread E N rename type_map allow_delete).

Lemma any_version t1 v1 t2 d bs rest : in_schema O t1 -> has_ty E t1 v1 -> vwrite E O t1 v1 = Ok bs -> in_schema N t2 -> layout_of t2 = layout_of t1 -> sized t2 d ->
  (exists e, vread t2 d (bs ++ rest) = Throw e) \/
  (exists v2, vread t2 d (bs ++ rest) = Ok (v2, rest) /\ sized t2 v2 /\ agreed O N rename type_map allow_delete t1 v1 t2).
Proof.
  intros HS HT W HS2 HL HD. unfold vwrite in W. destruct (write_protos E O) as [h| |] eqn:Eh; cbn [rbind] in W; try discriminate.
  destruct (write E struct_index t1 v1) as [b| |] eqn:Eb; cbn [rbind] in W; try discriminate. apply ok_inj in W; subst bs.
  unfold VtsModel.vread, vread_from. rewrite <- app_assoc, (read_header E O N type_map h (b ++ rest) HP Eh). destruct HP as (HclO & Hi & _).
  destruct (attach_unknown O N type_map HclO Hi) as [HK|HU]; [|left; rewrite HU; cbn [rbind]; eauto].
  rewrite attach_known by auto. cbn [rbind]. unfold vreadv.
  destruct (chunks E O N rename type_map allow_delete HclO Hi HclN HK HF HR Hne t1 HS v1 b HT Eb) as [C _].
  specialize (C t2 d (length (b ++ rest)) HL HS2 HD rest (fun _ => None)).
  assert (I0 : cinv O N rename type_map (fun _ => None)) by (intros i k m X; discriminate). specialize (C I0 ltac:(lia)).
  destruct (CodecModel.read E _ _ t2 d (b ++ rest, fun _ => None)) as [[v [s c]]|e|]; cbn [rbind fst]; [right|left; eauto|contradiction].
  destruct C as (-> & _ & X1 & X2). eauto.
Qed.

(** C89: for every pair of programs, every mapping of names, every value and whatever
    follows it.  No structure without fields is written, and types with one name have one
    layout (see [faithful_unpacked]). *)
Theorem vts_any_version_partial t1 v1 t2 d bs rest : in_schema O t1 -> has_ty E t1 v1 -> vwrite E O t1 v1 = Ok bs -> in_schema N t2 -> layout_of t2 = layout_of t1 -> sized t2 d ->
  (exists e, vread t2 d (bs ++ rest) = Throw e) \/ (exists v2, vread t2 d (bs ++ rest) = Ok (v2, rest) /\ sized t2 v2).
Proof. intros HS HT W HS2 HL HD. destruct (any_version t1 v1 t2 d bs rest) as [X|(v2 & X1 & X2 & _)]; eauto. Qed.

(** C36 in depth: if somewhere in the data an old structure has to be read into a new one
    that has a field of the same (mapped) name and another type, reading throws. *)
Theorem vts_mismatch_nested_partial t1 v1 t2 d bs rest p q fs gs f j g : in_schema O t1 -> has_ty E t1 v1 -> vwrite E O t1 v1 = Ok bs -> in_schema N t2 -> layout_of t2 = layout_of t1 -> sized t2 d ->
  meets rename t1 v1 t2 p q -> nth_error (structs O) p = Some fs -> nth_error (structs N) q = Some gs ->
  In f fs -> index_of (rename q (fst f)) gs = Some j -> nth_error gs j = Some g -> mismatch type_map (snd f) (snd g) ->
  exists e, vread t2 d (bs ++ rest) = Throw e.
Proof.
  intros HS HT W HS2 HL HD HM Hp Hq Hin Hj Hg K. destruct (any_version t1 v1 t2 d bs rest) as [X|(v2 & _ & _ & X)]; eauto. exfalso.
  specialize (X p q HM fs gs Hp Hq f Hin). rewrite Hj in X. now apply (X g Hg).
Qed.
(** If fields may not be deleted, reading throws when an old structure that has to be read
    has a field without a counterpart. *)
Theorem vts_no_delete_partial t1 v1 t2 d bs rest p q fs gs f : allow_delete = false -> in_schema O t1 -> has_ty E t1 v1 -> vwrite E O t1 v1 = Ok bs -> in_schema N t2 -> layout_of t2 = layout_of t1 -> sized t2 d ->
  meets rename t1 v1 t2 p q -> nth_error (structs O) p = Some fs -> nth_error (structs N) q = Some gs -> In f fs -> index_of (rename q (fst f)) gs = None ->
  exists e, vread t2 d (bs ++ rest) = Throw e.
Proof.
  intros HA HS HT W HS2 HL HD HM Hp Hq Hin Hj. destruct (any_version t1 v1 t2 d bs rest) as [X|(v2 & _ & _ & X)]; eauto. exfalso.
  specialize (X p q HM fs gs Hp Hq f Hin). rewrite Hj in X. congruence.
Qed.
End Props.

(** ** When types with one name have one layout *)
(** No vector<bool>, array<bool, n> or bitset. *)
Fixpoint unpacked (t : ty) : Prop :=
  match t with
  | TArr _ TBool | TVec TBool => False
  | TOpt t | TArr _ t | TVec t | TDeque _ t | TSet _ t => unpacked t
  | TMap _ k v => unpacked k /\ unpacked v
  | TVar ts => (fix all l := match l with [] => True | t :: r => unpacked t /\ all r end) ts
  | _ => True
  end.
Fixpoint layout_of_shape (s : shape) : layout :=
  match s with
  | SInt w => LInt w | SOpt s => LOpt (layout_of_shape s) | SArr s n => LArr n (layout_of_shape s) | SSeq s => LSeq (layout_of_shape s)
  | SPair a b => LTup [layout_of_shape a; layout_of_shape b] | SVar l => LVar (map layout_of_shape l) | SStruct => LStruct
  end.
Lemma layout_shape t : nameable t -> unpacked t -> layout_of t = layout_of_shape (shape_of t).
Proof.
  induction t using ty_ind'; intros HN HU; try reflexivity.
  - cbn [layout_of shape_of layout_of_shape]. f_equal. auto.
  - destruct t; try contradiction; exact (f_equal (LArr n) (IHt HN HU)).
  - destruct t; try contradiction; exact (f_equal LSeq (IHt HN HU)).
  - cbn [layout_of shape_of layout_of_shape]. f_equal. auto.
  - cbn [layout_of shape_of layout_of_shape]. f_equal. auto.
  - destruct HN, HU. cbn [layout_of shape_of layout_of_shape]. rewrite IHt1, IHt2 by auto. reflexivity.
  - cbn [layout_of shape_of layout_of_shape]. f_equal. cbn [nameable unpacked] in HN, HU. induction H as [|t ts Ht Hts IH]; [reflexivity|]. destruct HN, HU. cbn [map]. rewrite Ht, IH by auto. reflexivity.
  - contradiction.
Qed.
Theorem faithful_unpacked O N : (forall t, In t (ftypes O) -> nameable t /\ unpacked t) -> (forall t, In t (ftypes N) -> nameable t /\ unpacked t) -> faithful O N (fun n => n).
Proof.
  intros HO HN t u Ht Hu Q. destruct (HO t Ht), (HN u Hu). rewrite !layout_shape by auto. f_equal. now apply vts_name_is_shape.
Qed.

(** ** Where the code does otherwise *)
(** A vector<bool> that has become a vector<uint8_t> is not noticed; the reader loses its
    place, and the index of a variant behind it is anything: undefined behaviour with data
    that another version has written. *)
Local Open Scope string_scope.
Definition packed_old := [(nm "a", TVec TBool); (nm "v", TVar [I32]); (nm "z", I32)].
Definition packed_new := [(nm "a", TVec (TInt false 1)); (nm "v", TVar [I32]); (nm "z", I32)].
Theorem vts_packed_bools_refuted : exists v bs, has_ty env0 (TStruct 0 packed_old) v /\
  vwrite env0 {| structs := [packed_old]; ftypes := [TVec TBool; TVar [I32]; I32] |} (TStruct 0 packed_old) v = Ok bs /\
  vread env0 {| structs := [packed_new]; ftypes := [TVec (TInt false 1); TVar [I32]; I32] |} id_rename id_type true (TStruct 0 packed_new) (VTup [VList []; VVar 0 (VInt 0); VInt 0]) bs = UB.
Proof.
  exists (VTup [VList (repeat (VBool true) 8); VVar 0 (VInt 5); VInt 7]). eexists. split; [|split; [vm_compute; reflexivity|vm_compute; reflexivity]].
  cbn. unfold fits, small, range. cbn. repeat (split || constructor); lia.
Qed.

(** ** A concrete case *)
(** A vector of structures in which the type of a field has changed, behind a field that
    is read without problems and one that is skipped. *)
Definition row_old := [(nm "id", I32); (nm "w", TInt true 2)].
Definition row_new := [(nm "w", TInt true 8); (nm "id", I32)].
Definition table_old := [(nm "title", TStr 1); (nm "gone", I32); (nm "rows", TVec (TStruct 0 row_old))].
Definition table_new := [(nm "rows", TVec (TStruct 0 row_new)); (nm "title", TStr 1)].
Definition table_schema_old := {| structs := [row_old; table_old]; ftypes := [I32; TInt true 2; TStr 1; TVec (TStruct 0 row_old)] |}.
Definition table_schema_new := {| structs := [row_new; table_new]; ftypes := [TVec (TStruct 0 row_new); TStr 1; I32; TInt true 8; TInt true 2] |}.
Definition table_value rows := VTup [VStr [104]; VInt 3; VList rows].
Definition table_env : env := {| cmp := fun _ => int_lt; init := fun sid => match sid with 0%nat => [VInt 0; VInt 0] | _ => [VList []; VStr []] end; alloc_ok := fun n => (n <? 1000000)%Z; limit := None |}.
Local Close Scope string_scope.
Example table_readable : program table_env table_schema_old /\ closed table_schema_new /\ readable table_env table_schema_new /\ faithful table_schema_old table_schema_new id_type /\ in_schema table_schema_old (TStruct 1 table_old) /\ in_schema table_schema_new (TStruct 1 table_new).
Proof.
  assert (C : closed table_schema_old). { intros fs f Hfs Hf Es. cbn in Hfs. destruct Hfs as [<-|[<-|[]]]; cbn in Hf; repeat (destruct Hf as [<-|Hf]; [cbn; auto 6; discriminate Es|]); contradiction. }
  assert (C' : closed table_schema_new). { intros fs f Hfs Hf Es. cbn in Hfs. destruct Hfs as [<-|[<-|[]]]; cbn in Hf; repeat (destruct Hf as [<-|Hf]; [cbn; auto 6; discriminate Es|]); contradiction. }
  split; [split; [exact C|split; [split; vm_compute; reflexivity|]]|split; [exact C'|split; [|split; [|split]]]].
  - cbn. unfold fits, small, range. cbn. repeat (split || constructor); try lia; try (vm_compute; congruence).
  - split.
    + intros [|[|sid]] fs H; cbn in H; try discriminate; [| |destruct sid; discriminate]; injection H as <-; cbn; auto 10.
    + intros t H. cbn in H. repeat (destruct H as [<-|H]; [cbn; repeat split; lia|]). contradiction.
  - apply faithful_unpacked; intros t H; cbn in H; repeat (destruct H as [<-|H]; [cbn; auto|]); contradiction.
  - cbn. repeat split; lia.
  - cbn. repeat split; lia.
Qed.
Example table_meets : meets id_rename (TStruct 1 table_old) (table_value [VTup [VInt 1; VInt 2]]) (TStruct 1 table_new) 0 0.
Proof.
  eapply (meets_field _ _ _ _ _ _ 2); [reflexivity|reflexivity|vm_compute; reflexivity|reflexivity|]. eapply meets_element; [reflexivity|reflexivity|now left|]. constructor.
Qed.
(** With a row the mismatch is found; without rows there is nothing to find. *)
Example table_demo :
  match vwrite table_env table_schema_old (TStruct 1 table_old) (table_value [VTup [VInt 1; VInt 2]]), vwrite table_env table_schema_old (TStruct 1 table_old) (table_value []) with
  | Ok a, Ok b => vread table_env table_schema_new id_rename id_type true (TStruct 1 table_new) (VTup [VList []; VStr []]) (a ++ [9]) = Throw IoError /\
                  vread table_env table_schema_new id_rename id_type true (TStruct 1 table_new) (VTup [VList []; VStr []]) (b ++ [9]) = Ok (VTup [VList []; VStr [104]], [9]) /\
                  vread table_env table_schema_new id_rename id_type false (TStruct 1 table_new) (VTup [VList []; VStr []]) (b ++ [9]) = Throw FieldNotFound
  | _, _ => False end.
Proof. vm_compute. repeat split. Qed.
