(** PlainReader (C82). *)
From Coq Require Import ZifyBool ZifyNat String.
From Verif Require Import Common Int2ArrayModel Int2ArrayProps CodecModel CodecSpec CodecProofs CodecLocal CodecProps VtsModel PlainReaderModel.
Local Open Scope Z_scope.
Local Open Scope list_scope.

Section Props.
Context (E : env).
Lemma plain_index_any (pre : nat -> bytes) : (forall sid, length (pre sid) = 2%nat) ->
  forall (sid : nat) (rds : list (reader bytes)) (olds : list val) (b rest : bytes) (l : list val), True -> length l = length rds ->
  get_each rds olds (b ++ rest) = Ok (l, rest) -> plain_index sid rds olds (pre sid ++ b ++ rest) = Ok (l, rest).
Proof. intros Hp sid rds olds b rest l _ _ G. unfold plain_index, get_int. rewrite get_raw_app by auto. exact G. Qed.

(** C82: whatever the two bytes before each structure are, the fields that follow are read back. *)
Theorem plain_reader_any_index pre t v old bs rest : (forall sid, length (pre sid) = 2%nat) -> wf_ty E t -> has_ty E t v -> fresh t old ->
  write E pre t v = Ok bs -> plain_read E t old (bs ++ rest) = Ok (v, rest).
Proof.
  intros Hp Hw HT HF W. apply (read_write E pre plain_index (fun _ => True)); auto; [|apply sids_true]. now apply plain_index_any.
Qed.
(** What a Writer has written, any number of objects one after another, is read back. *)
Theorem plain_reader_round_trip ts : forall vs rest, Forall (wf_ty E) ts -> Forall2 (has_ty E) ts vs ->
  exists bs, writer_writes E ts vs = Ok bs /\ plain_reads E ts (bs ++ rest) = Ok (vs, rest).
Proof.
  induction ts as [|t ts IH]; intros vs rest Hw HT; inversion HT; subst; cbn [writer_writes plain_reads].
  - exists []. auto.
  - inversion Hw; subst. destruct (write_total E struct_index (fun _ => put_int_bytes _ _) t y) as (a & Ea & _); auto.
    destruct (IH l' rest) as (b & Eb & Rb); auto. rewrite Ea, Eb. cbn [rbind]. eexists. split; [reflexivity|]. rewrite <- app_assoc.
    rewrite (plain_reader_any_index struct_index t y (default E t) a (b ++ rest)); auto.
    + cbn [rbind]. now rewrite Rb.
    + now apply fresh_default.
Qed.
(** No input leads to undefined behaviour, unless there are variants in the type (C34). *)
Theorem plain_reader_no_ub_partial t : no_variant t -> forall old s, plain_read E t old s <> UB.
Proof.
  apply read_no_ub. intros sid rds Hr olds s. unfold plain_index. apply bind_no_ub; [apply int_no_ub|]. intros [z s1]. now apply each_no_ub.
Qed.
End Props.

(** ** Concrete cases *)
Definition pr_env : env := {| cmp := fun _ _ _ => false; init := fun _ => [VInt 0; VInt 0]; alloc_ok := fun n => n <? 1000; limit := None |}.
Definition pr_i32 : ty := TInt true 4.
Definition pr_ab := [(str "a", pr_i32); (str "b", pr_i32)].
Definition pr_ba := [(str "b", pr_i32); (str "a", pr_i32)].
Definition pr_schema fs : schema := {| structs := [fs]; ftypes := [pr_i32] |}.
(** C82: prototypes that differ are not noticed: the fields change places, while a Reader
    finds them by their names. *)
Theorem plain_reader_prototypes_refuted : exists f s, vwrite pr_env (pr_schema pr_ab) (TStruct 0 pr_ab) (VTup [VInt 1; VInt 2]) = Ok f /\
  (exists ps, read_protos get_raw pr_env (pr_schema pr_ba) (fun n => n) f = Ok (ps, s)) /\
  plain_read pr_env (TStruct 0 pr_ba) (VTup [VInt 0; VInt 0]) s = Ok (VTup [VInt 1; VInt 2], []) /\
  vread pr_env (pr_schema pr_ba) (fun _ n => n) (fun n => n) true (TStruct 0 pr_ba) (VTup [VInt 0; VInt 0]) f = Ok (VTup [VInt 2; VInt 1], []).
Proof. do 2 eexists. split; [vm_compute; reflexivity|]. split; [eexists; vm_compute; reflexivity|]. split; vm_compute; reflexivity. Qed.
Example plain_reader_demo : let t := TVec (TStruct 7 pr_ab) in
  match writer_writes pr_env [t; pr_i32] [VList [VTup [VInt 1; VInt 2]; VTup [VInt (-3); VInt 4]]; VInt 5] with
  | Ok bs => length bs = 32%nat /\ plain_reads pr_env [t; pr_i32] (bs ++ [9]) = Ok ([VList [VTup [VInt 1; VInt 2]; VTup [VInt (-3); VInt 4]]; VInt 5], [9]) /\
             plain_reads pr_env [t; pr_i32] (firstn 31 bs) = Throw EndOfFile
  | _ => False end.
Proof. vm_compute. auto. Qed.
