(** Properties of the version tolerant serialization. *)
From Coq Require Import ZifyBool ZifyNat String.
From Verif Require Import Common Int2ArrayModel Int2ArrayProps CodecModel CodecSpec CodecProofs CodecLocal CodecProps VtsModel VtsSpec VtsProofs VtsEvolve.
Local Open Scope Z_scope.
Local Open Scope list_scope.
Local Notation length := List.length.

Section Props.
Context (E : env) (O N : schema) (rename : nat -> fname -> fname) (type_map : fname -> fname) (rho : nat -> nat).
Context (HP : program E O) (HclN : closed N).
Notation mig := (mig E N rename type_map rho). Notation unchanged := (unchanged N rename type_map rho). Notation evolves := (evolves N rename type_map rho).
Notation vread allow_delete := (vread E N rename type_map allow_delete).

(** Every value can be written. *)
Theorem vts_write_total t v : has_ty E t v -> exists bs, vwrite E O t v = Ok bs /\ Forall is_byte bs.
Proof.
  intros HT. destruct HP as (_ & _ & HM). destruct (header_bytes E O HM) as (h & W & W'). destruct (codec_write_total E _ _ HM) as (h' & W2 & Hb). rewrite W' in W2. apply ok_inj in W2. subst h'.
  destruct (write_total E struct_index (fun sid => put_int_bytes 2 _) t v HT) as (b & Wb & Hb'). unfold vwrite. rewrite W, Wb. cbn [rbind]. eexists. split; [reflexivity|]. apply Forall_app. auto.
Qed.

(** C35: if the new type can take the values of the old one ([evolves]: fields with one
    name have one type or types that evolve, and what is removed has a type whose name the
    new program knows), then every written value is read, the result is what [mig] says,
    and exactly the written bytes are consumed. *)
Theorem vts_tolerant_partial t1 v1 t2 d : initialized E N -> known_types O N type_map -> in_schema O t1 -> in_schema N t2 ->
  evolves t1 (Some t2) -> has_ty E t1 v1 -> blank t2 d ->
  exists v2 bs, mig t1 v1 (Some (t2, d, v2)) /\ vwrite E O t1 v1 = Ok bs /\ forall rest, vread true t2 d (bs ++ rest) = Ok (v2, rest).
Proof.
  intros HI HK HO HN HE HT HB. destruct (evolves_mig E N rename type_map rho HI t1) as [R _]. destruct (R t2 v1 d HE HN HT HB) as [v2 M].
  destruct (vts_write_total t1 v1 HT) as (bs & W & _). exists v2, bs. split; auto. split; auto. intros rest. eapply vread_vwrite; eauto.
Qed.
(** Field by field: a field with the same name and type in both versions has the written
    value, wherever it stands; an added field is as it was. *)
Theorem vts_fields_partial s1 fs1 l1 s2 fs2 ds : initialized E N -> known_types O N type_map -> in_schema O (TStruct s1 fs1) -> in_schema N (TStruct s2 fs2) ->
  evolves (TStruct s1 fs1) (Some (TStruct s2 fs2)) -> has_ty E (TStruct s1 fs1) (VTup l1) -> blank (TStruct s2 fs2) (VTup ds) ->
  exists l2 bs, vwrite E O (TStruct s1 fs1) (VTup l1) = Ok bs /\ (forall rest, vread true (TStruct s2 fs2) (VTup ds) (bs ++ rest) = Ok (VTup l2, rest)) /\
    (forall i f x j, nth_error fs1 i = Some f -> nth_error l1 i = Some x -> index_of (rename s2 (fst f)) fs2 = Some j ->
       nth_error (map snd fs2) j = Some (snd f) -> unchanged (snd f) -> nth_error l2 j = Some x) /\
    (forall j, (forall f, In f fs1 -> index_of (rename s2 (fst f)) fs2 <> Some j) -> nth_error l2 j = nth_error ds j).
Proof.
  intros HI HK HO HN HE HT HB. destruct (vts_tolerant_partial _ _ _ _ HI HK HO HN HE HT HB) as (v2 & bs & M & W & R).
  assert (exists l2, v2 = VTup l2) as [l2 ->] by (destruct v2; try contradiction; eauto). exists l2, bs. split; auto. split; auto.
  destruct M as (HR & HN2 & Hne & ND & L2 & Ld & HF & Hk). apply fields_all2 in HF. split; [|exact Hk].
  intros i f x j Hf Hx Hj Ht HU.
  assert (A : forall fs l k, all2 (fun f x => match index_of (rename s2 (fst f)) fs2 with
             | Some j => exists t e y, nth_error (map snd fs2) j = Some t /\ nth_error ds j = Some e /\ nth_error l2 j = Some y /\ same_name type_map (snd f) t /\ mig (snd f) x (Some (t, e, y))
             | None => mig (snd f) x None end) fs l -> nth_error fs k = Some f -> nth_error l k = Some x ->
             exists e y, nth_error ds j = Some e /\ nth_error l2 j = Some y /\ mig (snd f) x (Some (snd f, e, y))).
  { induction fs as [|g fs IH]; intros [|z l] [|k] HA K1 K2; cbn in K1, K2; try discriminate; destruct HA as [A1 A2].
    - injection K1 as ->. injection K2 as ->. rewrite Hj in A1. destruct A1 as (t & e & y & T1 & T2 & T3 & _ & T5). rewrite Ht in T1. injection T1 as <-. eauto.
    - eauto. }
  destruct (A fs1 l1 i HF Hf Hx) as (e & y & He & Hy & M). rewrite Hy. f_equal.
  rewrite nth_error_map in Ht. destruct (nth_error fs2 j) as [g|] eqn:Eg; [|discriminate]. injection Ht as Ht.
  apply (mig_det E N rename type_map rho _ _ _ _ _ _ M). apply mig_unchanged; auto.
  - destruct HN as [_ HN]. rewrite (map_snd (in_schema N)) in HN. apply (in_all _ _ _ HN). rewrite <- Ht. apply in_map. eapply nth_error_In; eauto.
  - apply HI.
  - apply (each_nth _ _ i _ _ HT); auto. now rewrite nth_error_map, Hf.
  - apply (each_nth _ _ j _ _ HB); auto. rewrite nth_error_map, Eg. cbn [option_map]. now rewrite Ht.
Qed.

(** ** C36: mismatched types *)
Definition mismatch (t1 t2 : ty) : Prop := is_struct t1 <> is_struct t2 \/ is_struct t1 = false /\ type_map (type_name t1) <> type_name t2.

Lemma map_field_cases s1 fs1 f s2 fs2 : nth_error (structs O) s1 = Some fs1 -> nth_error (structs N) s2 = Some fs2 -> known_types O N type_map -> In f fs1 ->
  match index_of (rename s2 (fst f)) fs2 with
  | None => map_field N rename s2 (new_proto N fs2) (old_field N type_map f) = Ok None
  | Some j => exists g, nth_error fs2 j = Some g /\
      ((mismatch (snd f) (snd g) /\ map_field N rename s2 (new_proto N fs2) (old_field N type_map f) = Throw IoError) \/
       (~ mismatch (snd f) (snd g) /\ map_field N rename s2 (new_proto N fs2) (old_field N type_map f) = Ok (Some j)))
  end.
Proof.
  intros H1 H2 HK Hf. unfold map_field. rewrite index_new. change (fst (old_field N type_map f)) with (fst f). destruct (index_of (rename s2 (fst f)) fs2) as [j|] eqn:Ej; [|reflexivity].
  pose proof Ej as Ej'. apply find_first_some in Ej' as (g & Hg & _). exists g. split; auto.
  rewrite (new_proto_at N fs2 j (snd g)) by (rewrite nth_error_map, Hg; reflexivity).
  pose proof (nth_error_In _ _ H1) as I1. pose proof (nth_error_In _ _ H2) as I2. pose proof (nth_error_In _ _ Hg) as I3. unfold mismatch, old_field. cbn [snd].
  destruct (is_struct (snd f)) eqn:S1, (is_struct (snd g)) eqn:S2.
  - right. split; [intros [X|[X _]]; congruence|]. destruct (snd g); try discriminate. reflexivity.
  - left. split; [left; congruence|]. destruct (field_type_known N HclN _ _ I2 I3 S2) as [k ->]. reflexivity.
  - left. split; [left; congruence|]. destruct (known_type N type_map (snd f)) as [a|] eqn:Ha; [|now apply (HK _ _ I1 Hf) in Ha]. destruct (snd g); try discriminate. reflexivity.
  - destruct (field_type_known N HclN _ _ I2 I3 S2) as [k Hk]. rewrite Hk. destruct (known_type N type_map (snd f)) as [a|] eqn:Ha; [|now apply (HK _ _ I1 Hf) in Ha].
    apply name_old in Ha as (u & Hu & Nu). apply name_new in Hk as (w & Hw & Nw). cbn [check_compatible]. unfold types_equal, name_at. rewrite Hu, Hw. cbn [rbind].
    destruct (Nat.eqb_spec a k) as [->|NE].
    + right. split; [|reflexivity]. intros [X|[_ X]]; [congruence|]. apply X. rewrite <- Nu, <- Nw. congruence.
    + cbn [rbind]. destruct (fname_eqb (type_name u) (type_name w)) eqn:Q.
      * right. apply fname_eqb_eq in Q. split; [intros [X|[_ X]]; congruence|reflexivity].
      * left. split; [|reflexivity]. right. split; auto. intros X. assert (Y : type_name u = type_name w) by congruence. apply fname_eqb_eq in Y. congruence.
Qed.
Theorem vts_mismatch_partial allow_delete s1 fs1 v1 s2 fs2 d bs rest : nth_error (structs O) s1 = Some fs1 -> nth_error (structs N) s2 = Some fs2 ->
  vwrite E O (TStruct s1 fs1) v1 = Ok bs ->
  (exists f j g, In f fs1 /\ index_of (rename s2 (fst f)) fs2 = Some j /\ nth_error fs2 j = Some g /\ mismatch (snd f) (snd g)) ->
  vread allow_delete (TStruct s2 fs2) d (bs ++ rest) = Throw TypeMismatch \/ vread allow_delete (TStruct s2 fs2) d (bs ++ rest) = Throw IoError.
Proof.
  intros H1 H2 W (f & j & g & Hf & Hj & Hg & HM). unfold vwrite in W. destruct (write_protos E O) as [h| |] eqn:Eh; cbn [rbind] in W; try discriminate.
  destruct (write E struct_index (TStruct s1 fs1) v1) as [b| |] eqn:Eb; cbn [rbind] in W; try discriminate. apply ok_inj in W; subst bs.
  unfold VtsModel.vread, vread_from. rewrite <- app_assoc, (read_header E O N type_map h (b ++ rest) HP Eh). destruct HP as (HclO & Hi & _).
  destruct (attach_unknown O N type_map HclO Hi) as [HK|HU]; [|left; now rewrite HU].
  rewrite attach_known by auto. cbn [rbind]. right. unfold vreadv. cbn [read].
  destruct v1; cbn [write] in Eb; try discriminate. destruct (put_each _ l) as [b'| |]; cbn [rbind] in Eb; try discriminate. apply ok_inj in Eb. subst b. rewrite <- app_assoc.
  unfold hook at 1.
  destruct (RD_index O N rename type_map (fun _ => s2) Hi s1 fs1 H1 (length (struct_index s1 ++ b' ++ rest)) (b' ++ rest) (fun _ => None)) as (c' & _ & Q); [intros i; now left|lia|].
  assert (c' = fun _ => None) as ->.
  { unfold read_index, get_int, vraw in Q. cbn [fst snd] in Q. destruct (get_raw 2 (struct_index s1 ++ b' ++ rest)) as [[x y]| |]; cbn [rbind] in Q; try discriminate.
    destruct (Z.of_nat _ <=? _); [discriminate|]. now injection Q. }
  rewrite Q. cbn [rbind snd]. unfold find_map.
  replace (nth s1 (old_protos O N type_map) []) with (map (old_field N type_map) fs1) by (symmetry; apply nth_error_nth; unfold old_protos; now rewrite nth_error_map, H1).
  rewrite (nth_error_nth _ _ [] H2). unfold map_protos. rewrite mapM_map.
  assert (C : forall x, In x fs1 -> (exists y, map_field N rename s2 (new_proto N fs2) (old_field N type_map x) = Ok y) \/ map_field N rename s2 (new_proto N fs2) (old_field N type_map x) = Throw IoError).
  { intros x Hx. pose proof (map_field_cases s1 fs1 x s2 fs2 H1 H2 HK Hx) as K. destruct (index_of (rename s2 (fst x)) fs2); [destruct K as (? & _ & [[_ K]|[_ K]])|]; eauto. }
  destruct (mapM_or _ _ _ C) as [[m Hm]|Hm]; [|rewrite Hm; reflexivity]. exfalso.
  destruct (mapM_all _ _ _ Hm f Hf) as [y Hy]. pose proof (map_field_cases s1 fs1 f s2 fs2 H1 H2 HK Hf) as K. rewrite Hj in K.
  destruct K as (g' & Hg' & K). rewrite Hg in Hg'. injection Hg' as <-. destruct K as [[_ K]|[K _]]; [congruence|contradiction].
Qed.
End Props.

(** The same program reads back what it has written, if the names of the fields of each
    structure are distinct. *)
Theorem vts_round_trip E P t v d : program E P -> initialized E P -> in_schema P t -> unchanged P (fun _ n => n) (fun n => n) (fun s => s) t ->
  has_ty E t v -> blank t d -> exists bs, vwrite E P t v = Ok bs /\ forall rest, vread E P (fun _ n => n) (fun n => n) true t d (bs ++ rest) = Ok (v, rest).
Proof.
  intros HP HI HS HU HT HB. destruct (vts_write_total E P HP t v HT) as (bs & W & _). exists bs. split; auto. intros rest.
  eapply vread_vwrite; [eauto|apply HP| |eauto| |eauto].
  - intros fs f Hfs Hf Es. unfold known_type. apply (find_first_in _ _ (snd f)); [now apply (proj1 HP) with fs|now apply fname_eqb_eq].
  - apply (mig_unchanged E P (fun _ n => n) (fun n => n) (fun s => s)); auto. apply HI.
Qed.

(** ** Concrete cases *)
Definition env0 : env := {| cmp := fun _ => int_lt; init := fun sid => match sid with O => [VInt 0; VInt 0] | _ => [VInt 7; VStr []; VTup [VInt 0; VInt 0]] end;
                            alloc_ok := fun n => n <? 1000000; limit := None |}.
Definition id_rename : nat -> fname -> fname := fun _ n => n.
Definition id_type : fname -> fname := fun n => n.
Definition nm (s : string) : fname := str s.
Definition I32 := TInt true 4. Definition U32 := TInt false 4.
Local Open Scope string_scope.
(** Structure 0 is { a, b }; structure 1 had x, name, list and p, and has now y instead of
    list, p without its field b, and another order. *)
Definition inner_old := [(nm "a", I32); (nm "b", TStr 1)].
Definition outer_old := [(nm "x", I32); (nm "list", TVec I32); (nm "name", TStr 1); (nm "p", TStruct 0 inner_old)].
Definition schema_old := {| structs := [inner_old; outer_old]; ftypes := [I32; TStr 1; TVec I32] |}.
Definition inner_new := [(nm "c", I32); (nm "a", I32)].
Definition outer_new := [(nm "y", I32); (nm "name", TStr 1); (nm "p", TStruct 0 inner_new)].
Definition schema_new := {| structs := [inner_new; outer_new]; ftypes := [TVec I32; I32; TStr 1] |}.
Definition value_old := VTup [VInt 1; VList [VInt 2; VInt 3]; VStr [104; 105]; VTup [VInt 4; VStr [120]]].
Definition value_default := VTup [VInt 7; VStr []; VTup [VInt 0; VInt 0]].
Definition value_new := VTup [VInt 7; VStr [104; 105]; VTup [VInt 0; VInt 4]].
Local Close Scope string_scope.

Ltac known := intros fs f Hfs Hf Es; cbn in Hfs; repeat (destruct Hfs as [<-|Hfs]; [cbn in Hf; repeat (destruct Hf as [<-|Hf]; [vm_compute; try discriminate; auto; fail|]); try contradiction|]); try contradiction.
Example vts_demo_program : program env0 schema_old /\ closed schema_new /\ known_types schema_old schema_new id_type /\ initialized env0 schema_new.
Proof.
  assert (C : closed schema_old).
  { intros fs f Hfs Hf Es. cbn in Hfs. destruct Hfs as [<-|[<-|[]]]; cbn in Hf; repeat (destruct Hf as [<-|Hf]; [cbn; auto; discriminate Es|]); contradiction. }
  assert (C' : closed schema_new).
  { intros fs f Hfs Hf Es. cbn in Hfs. destruct Hfs as [<-|[<-|[]]]; cbn in Hf; repeat (destruct Hf as [<-|Hf]; [cbn; auto; discriminate Es|]); contradiction. }
  split; [split; [exact C|split; [split; vm_compute; reflexivity|]]|split; [exact C'|split]].
  - cbn. unfold fits, small, range. cbn. repeat (split || constructor); try lia; try (vm_compute; congruence).
  - known.
  - split.
    + intros [|[|sid]] fs H; cbn in H; try discriminate; [| |destruct sid; discriminate]; injection H as <-; cbn; auto 10.
    + intros t H. cbn in H. repeat (destruct H as [<-|H]; [cbn; lia|]). contradiction.
Qed.
Example vts_demo_evolves : evolves schema_new id_rename id_type (fun s => s) (TStruct 1 outer_old) (Some (TStruct 1 outer_new)).
Proof.
  cbn [evolves outer_old]. repeat (split; [reflexivity || discriminate|]). split.
  - cbn. repeat constructor; cbn; intuition discriminate.
  - split; [|split; [|split; [|split; [|exact I]]]].
    + cbn. exists 1%nat, I32. auto.
    + cbn. exists 0%nat, (TVec I32). auto.
    + cbn. eexists. split; [reflexivity|]. split; [split; reflexivity|reflexivity].
    + cbn. eexists. split; [reflexivity|]. split; [split; reflexivity|]. repeat (split; [reflexivity || discriminate|]). split; [cbn; repeat constructor; cbn; intuition discriminate|].
      split; [|split; [|exact I]].
      * cbn. eexists. split; [reflexivity|]. split; [split; reflexivity|reflexivity].
      * cbn. exists 2%nat, (TStr 1). auto.
Qed.
Example vts_demo : match vwrite env0 schema_old (TStruct 1 outer_old) value_old with
  | Ok bs => length bs = 251%nat /\ vread env0 schema_new id_rename id_type true (TStruct 1 outer_new) value_default (bs ++ [9; 9]) = Ok (value_new, [9; 9]) /\
             vread env0 schema_new id_rename id_type false (TStruct 1 outer_new) value_default bs = Throw FieldNotFound /\
             vread env0 schema_old id_rename id_type true (TStruct 1 outer_old) (VTup [VInt 0; VList []; VStr []; VTup [VInt 0; VStr []]]) bs = Ok (value_old, [])
  | _ => False end.
Proof. vm_compute. repeat split. Qed.
(** Another type for x: *)
Example vts_demo_mismatch : match vwrite env0 schema_old (TStruct 1 outer_old) value_old with
  | Ok bs => vread env0 {| structs := [inner_new; [(nm "x", TInt true 8)]]; ftypes := [TVec I32; I32; TStr 1; TInt true 8] |} id_rename id_type true
                   (TStruct 1 [(nm "x", TInt true 8)]) (VTup [VInt 0]) bs = Throw IoError
  | _ => False end.
Proof. vm_compute. reflexivity. Qed.

(** ** Where the code does otherwise *)
Local Open Scope string_scope.
Definition one (n : string) (t : ty) : schema := {| structs := [[(nm n, t)]]; ftypes := [t] |}.
(** [t1] has become [t2] *)
Definition reread (t1 t2 : ty) (v d : val) : res (val * bytes) :=
  let* bs := vwrite env0 (one "a" t1) (TStruct 0 [(nm "a", t1)]) (VTup [v]) in
  vread env0 (one "a" t2) id_rename id_type true (TStruct 0 [(nm "a", t2)]) (VTup [d]) bs.
(** C36: signed and unsigned types have one name, and so have bool and uint8_t: the change
    is not noticed, and vector<bool> is laid out differently. *)
Theorem vts_sign_refuted : exists z y, has_ty env0 I32 (VInt z) /\ reread I32 U32 (VInt z) (VInt 0) = Ok (VTup [VInt y], []) /\ y <> z.
Proof. exists (-1), 4294967295. split; [cbn; unfold range; cbn; lia|]. split; [vm_compute; reflexivity|lia]. Qed.
Theorem vts_bool_refuted : exists l m, has_ty env0 (TVec TBool) (VList l) /\ reread (TVec TBool) (TVec (TInt false 1)) (VList l) (VList []) = Ok (VTup [VList m], []) /\ m <> l.
Proof. exists [VBool true], [VInt 1]. split; [cbn; unfold fits, small; cbn; repeat constructor; lia|]. split; [vm_compute; reflexivity|discriminate]. Qed.
Theorem vts_bools_lost_refuted : exists l, has_ty env0 (TVec TBool) (VList l) /\ reread (TVec TBool) (TVec (TInt false 1)) (VList l) (VList []) = Throw EndOfFile.
Proof. exists [VBool true; VBool false]. split; [cbn; unfold fits, small; cbn; repeat constructor; lia|]. vm_compute. reflexivity. Qed.
(** C35: a removed field cannot be skipped when nothing in the new program has a type with
    the name of its type. *)
Theorem vts_removed_type_refuted : exists bs,
  vwrite env0 {| structs := [[(nm "a", I32); (nm "b", TInt true 2)]]; ftypes := [I32; TInt true 2] |} (TStruct 0 [(nm "a", I32); (nm "b", TInt true 2)]) (VTup [VInt 1; VInt 2]) = Ok bs /\
  vread env0 (one "a" I32) id_rename id_type true (TStruct 0 [(nm "a", I32)]) (VTup [VInt 0]) bs = Throw TypeMismatch.
Proof. eexists. split; [vm_compute; reflexivity|vm_compute; reflexivity]. Qed.
(** C35: an empty structure to which fields are added is taken for an unchanged one, and
    the new field is read from what follows. *)
Theorem vts_empty_struct_refuted : exists bs rest,
  vwrite env0 {| structs := [[]]; ftypes := [] |} (TStruct 0 []) (VTup []) = Ok bs /\
  vread env0 (one "a" I32) id_rename id_type true (TStruct 0 [(nm "a", I32)]) (VTup [VInt 5]) (bs ++ rest) = Ok (VTup [VInt 1], []).
Proof. eexists. exists [1; 0; 0; 0]. split; [vm_compute; reflexivity|vm_compute; reflexivity]. Qed.
(** C35: a removed vector of structures is skipped as the first vector of structures in the
    new program, which then stands in the way of reading another vector of the same
    structures. *)
Definition sa := TStruct 0 [(nm "a", I32)].
Definition sc := TStruct 1 [(nm "c", I32)].
Definition conflict_old := [(nm "gone", TVec sa); (nm "kept", TVec sa)].
Definition conflict_new := [(nm "first", TVec sc); (nm "kept", TVec sa)].
Theorem vts_skip_conflict_refuted : exists bs,
  vwrite env0 {| structs := [[(nm "a", I32)]; conflict_old]; ftypes := [TVec sa; I32] |} (TStruct 1 conflict_old)
    (VTup [VList [VTup [VInt 1]]; VList [VTup [VInt 2]]]) = Ok bs /\
  vread env0 {| structs := [[(nm "a", I32)]; [(nm "c", I32)]; conflict_new]; ftypes := [TVec sc; I32; TVec sa] |} id_rename id_type true
    (TStruct 2 conflict_new) (VTup [VList []; VList []]) bs = Throw IoError.
Proof. eexists. split; [vm_compute; reflexivity|vm_compute; reflexivity]. Qed.
(** C34: the index of a structure is only asserted. *)
Theorem vts_index_refuted : exists h s, write_protos env0 (one "a" I32) = Ok h /\
  vread env0 (one "a" I32) id_rename id_type true (TStruct 0 [(nm "a", I32)]) (VTup [VInt 0]) (h ++ s) = UB.
Proof. eexists. exists [1; 0; 5; 0; 0; 0]. split; [vm_compute; reflexivity|vm_compute; reflexivity]. Qed.
Local Close Scope string_scope.
