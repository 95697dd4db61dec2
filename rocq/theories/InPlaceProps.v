(** Reading into an object that cannot be moved (C57), and a moved PersistentObject (C58). *)
From Coq Require Import ZifyBool ZifyNat String.
From Verif Require Import Common Int2ArrayModel CodecModel CodecSpec CodecProofs CodecProps VtsModel VtsSpec VtsProps AStoreModel AStoreSpec AStoreProofs AStoreProps InPlaceModel.
Local Open Scope Z_scope.
Local Open Scope list_scope.
Local Notation length := List.length.

(** C57, the part that holds, for types that cannot be moved.  An IoException leaves the
    object as it was, however much of it has been overwritten, if no optional, pointer,
    deque, set or map has got anything in it by then.  In a type without these that is so for
    every value (replaced_fresh). *)
Theorem in_place_read_keeps_partial E sch rename t cur mid s : wf_ty E t -> has_ty E t cur -> fresh t mid ->
  match in_place_read E sch rename t cur mid s with
  | Returned _ | Undefined => True
  | Raised e v => io_exn e = true -> v = cur
  | Terminated => False
  end.
Proof.
  intros Hw Hc Hm. unfold in_place_read. destruct (codec_write_total E t cur Hc) as (bs & W & _). rewrite W.
  destruct (vread _ _ _ _ _ _ _ _) as [[w r]|x|]; auto. unfold restore.
  pose proof (codec_round_trip E t cur mid bs [] Hw Hc Hm W) as K. rewrite app_nil_r in K. rewrite K. destruct (io_exn x) eqn:Ex; congruence.
Qed.
Theorem in_place_read_replaced_partial E sch rename t cur mid s e v : wf_ty E t -> replaced t -> has_ty E t cur -> has_ty E t mid -> io_exn e = true ->
  in_place_read E sch rename t cur mid s = Raised e v -> v = cur.
Proof.
  intros Hw Hr Hc Hm He X. pose proof (in_place_read_keeps_partial E sch rename t cur mid s Hw Hc (replaced_fresh E t Hr mid Hm)) as K.
  rewrite X in K. auto.
Qed.

(** ** Concrete cases *)
Local Open Scope string_scope.
Definition plain_fields := [(nm "a", I32); (nm "v", TVec I32)].
Definition queue_fields := [(nm "a", I32); (nm "q", TDeque None I32)].
Definition plain_schema := {| structs := [plain_fields]; ftypes := [I32; TVec I32] |}.
Definition queue_schema := {| structs := [queue_fields]; ftypes := [I32; TDeque None I32] |}.
Definition queue_value := VTup [VInt 5; VList [VInt 1; VInt 2]].
Local Close Scope string_scope.
(** The data end after a: the vector is empty, a is overwritten. *)
Example in_place_demo :
  match vwrite env0 plain_schema (TStruct 0 plain_fields) (VTup [VInt 9; VList [VInt 3]]) with
  | Ok bs => in_place_read env0 plain_schema id_rename (TStruct 0 plain_fields) queue_value (VTup [VInt 9; VList []]) (firstn (length bs - 5) bs) = Raised EndOfFile queue_value
  | _ => False end.
Proof. vm_compute. reflexivity. Qed.

(** ** Where the code does otherwise *)
(** Violated: the stream is empty, nothing of the object has been touched, and the restored
    deque has every element twice. *)
Theorem in_place_read_refuted : exists cur s v, has_ty env0 (TStruct 0 queue_fields) cur /\
  vread env0 queue_schema id_rename (fun n => n) true (TStruct 0 queue_fields) cur s = Throw EndOfFile /\
  in_place_read env0 queue_schema id_rename (TStruct 0 queue_fields) cur cur s = Raised EndOfFile v /\ v <> cur.
Proof.
  exists queue_value, [], (VTup [VInt 5; VList [VInt 1; VInt 2; VInt 1; VInt 2]]). split; [cbn; unfold small, range; cbn; repeat (split || constructor); lia|].
  split; [reflexivity|]. split; [vm_compute; reflexivity|discriminate].
Qed.

(** ** C58: a moved PersistentObject *)
Lemma set_nth_last {A} (m : list A) x y : set_nth (m ++ [x]) (length m) y = m ++ [y].
Proof. induction m as [|a m IH]; cbn; [reflexivity|now rewrite IH]. Qed.
Lemma nth_last {A} (m : list A) x : nth_error (m ++ [x]) (length m) = Some x.
Proof. rewrite nth_error_app2 by lia. now rewrite Nat.sub_diag. Qed.
(** An object that has not been moved saves its value, and another one loads it. *)
Theorem persistent_unmoved_partial enc rd good reads torn (m m' : slots) v0 v w st : format_ok enc rd good reads torn -> good v ->
  let (m1, p) := pnew m v0 st in let m2 := passign m1 p v in
  pvalue m2 p = Some v /\
  exists p', psave enc m2 p = Ok p' /\
  let (m3, q) := pnew m' w (pfiles p') in exists m4 q', pload enc rd m3 q = Ok (true, m4, q') /\ pvalue m4 q' = Some v.
Proof.
  intros FO Hg. unfold pnew, passign, pvalue. cbn [self refers]. rewrite set_nth_last. split; [now rewrite nth_last|]. eexists. unfold psave. cbn [refers]. rewrite nth_last. split; [reflexivity|]. cbn [pfiles].
  destruct (atomic_storage_save_load enc rd good reads torn st v FO Hg) as (st' & L & _). unfold pload. cbn [refers pfiles]. rewrite nth_last, L. cbn [rbind]. rewrite set_nth_last.
  eexists _, _. split; [reflexivity|]. cbn [self]. now rewrite nth_last.
Qed.
Definition new_storage : storage := {| master := fresh_file []; backup := fresh_file [] |}.
(** The files of integers: the toy format of AStoreProps. *)
Definition enc1 (v : val) : bytes := match v with VInt z => toy_enc [z] | _ => [] end.
Definition rd1 (c : bytes) : res (val * nat) := let* (b, n) := toy_rd c in match b with [z] => Ok (VInt z, n) | _ => Throw Corruption end.
(** Violated: the moved object saves the value of the object that it was moved from; *)
Theorem persistent_moved_refuted : exists (left : val -> val) (v w : val),
  let (m0, p) := pnew [] v new_storage in let (m1, q) := pmove left m0 p in let m2 := passign m1 q w in
  pvalue m2 q = Some w /\ exists q', psave enc1 m2 q = Ok q' /\
  let (m3, r) := pnew m2 (VInt 0) (pfiles q') in exists m4 r', pload enc1 rd1 m3 r = Ok (true, m4, r') /\ pvalue m4 r' = Some (left v) /\ left v <> w.
Proof.
  exists (fun v => v), (VInt 1), (VInt 2). cbv zeta. cbn [pnew pmove]. split; [reflexivity|]. eexists. split; [reflexivity|]. eexists _, _. split; [vm_compute; reflexivity|]. split; [reflexivity|discriminate].
Qed.
(** and if that one is gone, saving and loading are undefined: always. *)
Theorem persistent_dangling_refuted enc rd left m v st : let (m0, p) := pnew m v st in let (m1, q) := pmove left m0 p in let m2 := pdestroy m1 p in
  pvalue m2 q = Some v /\ psave enc m2 q = UB /\ pload enc rd m2 q = UB.
Proof.
  unfold pnew, pmove, pdestroy. cbn [self refers pfiles]. rewrite nth_last, set_nth_last.
  assert (L : length (m ++ [Some v]) = S (length m)) by (rewrite app_length; cbn; lia). rewrite L.
  assert (N1 : nth_error (set_nth ((m ++ [Some (left v)]) ++ [Some v]) (length m) None) (length m) = Some None).
  { clear. induction m as [|a m IH]; cbn; auto. }
  assert (N2 : nth_error (set_nth ((m ++ [Some (left v)]) ++ [Some v]) (length m) None) (S (length m)) = Some (Some v)).
  { clear. induction m as [|a m IH]; cbn; auto. }
  unfold pvalue, psave, pload. cbn [self refers pfiles]. rewrite N1, N2. auto.
Qed.
Example persistent_unmoved_demo : match psave enc1 [Some (VInt 7)] {| self := 0; refers := 0; pfiles := new_storage |} with
  | Ok p => match pload enc1 rd1 [Some (VInt 0)] {| self := 0; refers := 0; pfiles := pfiles p |} with Ok (b, m, q) => b = true /\ pvalue m q = Some (VInt 7) | _ => False end
  | _ => False end.
Proof. vm_compute. auto. Qed.
