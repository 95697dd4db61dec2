(** Model of Awl/UpdateQueue.h, on top of the pointer-level model of quick_list.

    Push, ClearPending, PrepareData and FreeData hold queueMutex (UpdateQueue.h:56, 66,
    124, 133) and are single steps; the loop of ApplyUpdates does not hold it and is cut
    into its calls and its iterator increments, so that anything other threads (or the
    update being applied) do can come in between.  Allocation does not fail. *)
From Verif Require Import Common QListModel.

Section UQ.
Context {U : Type}.     (* std::function<void(Args...)> *)

(** UpdateQueue.h:149-155; the names of the lists *)
Definition pending := 0.
Definition free_blocks := 1.
Definition rendering := 2.

(** ApplyUpdates (85-96): outside, at the loop condition with the iterator, or inside the
    call of an update *)
Inductive phase := Outside | AtLoop (p : ptr) | InCall (p : ptr).
(** The lists, Func of every block, the number of blocks allocated. *)
Record ustate := { ql : qstate; fn : nat -> option U; blocks : nat; ph : phase }.

Inductive uop :=
| UPush (u : U)
| UClearPending
| UPrepare       (* ApplyUpdates entered: the guard's init, and begin() *)
| UCall          (* the loop calls the update of the current message *)
| UNext          (* that call returned: ++i *)
| UThrow         (* that call threw: the guard runs FreeData, the exception propagates *)
| UFinish.       (* the iterator is at the end: the guard runs FreeData *)
Inductive uobs := UNone | UApplied (u : U) | UThrown.

Definition q0 (st : ustate) (os : list qop) : res qstate :=
  fold_left (fun r o => let* q := r in let* (q1, _) := qstep q o in Ok q1) os (Ok (ql st)).
Definition with_q (st : ustate) (q : qstate) : ustate := {| ql := q; fn := fn st; blocks := blocks st; ph := ph st |}.

Definition uinit : res ustate :=
  let* q := q0 {| ql := qinit; fn := fun _ => None; blocks := 0; ph := Outside |} [QNewList pending; QNewList free_blocks; QNewList rendering] in
  Ok {| ql := q; fn := fun _ => None; blocks := 0; ph := Outside |}.

(** UpdateQueue.h:64-82 Push *)
Definition u_push (u : U) (st : ustate) : res ustate :=
  let* (q1, b) := qstep (ql st) (QEmpty free_blocks) in
  match b with
  | VBool true =>
      let n := blocks st in
      let* (q2, _) := qstep q1 (QNewElem n) in
      let* (q3, _) := qstep q2 (QPushBack pending n) in
      Ok {| ql := q3; fn := upd (fn st) n (Some u); blocks := S n; ph := ph st |}
  | VBool false =>
      let* (q2, v) := qstep q1 (QPopFront free_blocks) in
      match v with
      | VElem n =>
          let* (q3, _) := qstep q2 (QPushBack pending n) in
          Ok {| ql := q3; fn := upd (fn st) n (Some u); blocks := blocks st; ph := ph st |}
      | _ => UB
      end
  | _ => UB
  end.
(** UpdateQueue.h:54-61 ClearPending *)
Definition u_clear (st : ustate) : res ustate :=
  let* q := q0 st [QSpliceBack free_blocks pending] in Ok (with_q st q).
(** UpdateQueue.h:122-129 PrepareData, and begin() of the loop in 92 *)
Definition u_prepare (st : ustate) : res ustate :=
  let* (q, _) := qstep (ql st) (QMoveAssign rendering pending) in
  let* p := fnext (fst q) (Some (Nl rendering)) in
  Ok {| ql := q; fn := fn st; blocks := blocks st; ph := AtLoop p |}.
(** UpdateQueue.h:131-142 FreeData *)
Definition u_free (st : ustate) : res ustate :=
  let* (q1, v) := qstep (ql st) (QIter rendering) in
  match v with
  | VList s =>
      let* (q2, _) := qstep q1 (QSpliceBack free_blocks rendering) in
      Ok {| ql := q2; fn := fold_left (fun f n => upd f n None) s (fn st); blocks := blocks st; ph := Outside |}
  | _ => UB
  end.

Definition ustep (st : ustate) (o : uop) : res (ustate * uobs) :=
  let quiet (r : res ustate) := let* st1 := r in Ok (st1, UNone) in
  match o with
  | UPush u => quiet (u_push u st)
  | UClearPending => quiet (u_clear st)
  | UPrepare => quiet (u_prepare st)
  | UCall =>
      match ph st with
      | AtLoop (Some (El n)) =>
          match fn st n with
          | Some u => Ok ({| ql := ql st; fn := fn st; blocks := blocks st; ph := InCall (Some (El n)) |}, UApplied u)
          | None => Throw RuntimeError     (* std::bad_function_call *)
          end
      | _ => UB
      end
  | UNext =>
      match ph st with
      | InCall p => let* p1 := fnext (fst (ql st)) p in
                    Ok ({| ql := ql st; fn := fn st; blocks := blocks st; ph := AtLoop p1 |}, UNone)
      | _ => UB
      end
  | UThrow => match ph st with InCall _ => let* st1 := u_free st in Ok (st1, UThrown) | _ => UB end
  | UFinish => match ph st with
               | AtLoop (Some (Nl l)) => guard (Nat.eqb l rendering) (quiet (u_free st))
               | _ => UB
               end
  end.

Fixpoint urun (st : ustate) (os : list uop) : res (ustate * list uobs) :=
  match os with
  | [] => Ok (st, [])
  | o :: os' => let* (st1, v) := ustep st o in let* (st2, vs) := urun st1 os' in Ok (st2, v :: vs)
  end.
Definition uexec (os : list uop) : res (ustate * list uobs) := let* st := uinit in urun st os.

(** ~MessageQueue (41-49) of rendering, free blocks and pending, in this order (the
    reverse of their declaration): the messages deleted.  The iterator moves on before
    the message it was at is deleted, and links have no destructor. *)
Definition udestroy (st : ustate) : res (list nat) :=
  let* (_, a) := qstep (ql st) (QIter rendering) in
  let* (_, b) := qstep (ql st) (QIter free_blocks) in
  let* (_, c) := qstep (ql st) (QIter pending) in
  match a, b, c with VList x, VList y, VList z => Ok (x ++ y ++ z) | _, _, _ => UB end.
End UQ.
