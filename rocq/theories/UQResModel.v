(** Model of Awl/UpdateQueue.h with functions whose copying may throw, and of the copies of
    the functions that the queue keeps.

    The three lists are sequences of messages: that quick_list implements them is C20, that
    the interleavings and the pointers do not matter is C24.  A message is a number; [fn]
    is its member Func.  Copying a std::function copies what it contains, which may throw;
    its copy assignment then leaves the destination as it was (copy and swap). *)
From Verif Require Import Common.

Section UQRes.
Context {U : Type}.     (* std::function<void(Args...)> *)

(** ApplyUpdates (UpdateQueue.h:85-96): outside, at the loop condition with the messages
    that are left, inside the call of an update *)
Inductive rphase := ROutside | RLoop (l : list nat) | RCall (l : list nat).
Record rstate := RState {
  pend : list nat; freeb : list nat; rend : list nat;    (* :149-155 *)
  fn : nat -> option U;                                  (* Func; None: empty *)
  made : nat;                                            (* the messages that have been allocated *)
  lost : list nat;                                       (* the messages that nothing refers to *)
  ph : rphase }.
Definition rinit : rstate := RState [] [] [] (fun _ => None) 0 [] ROutside.

(** [XPush u t]: t = Some i: the i-th copying of the function in this call throws. *)
Inductive xop := XPush (u : U) (t : option nat) | XClear | XPrepare | XCall | XNext | XThrow | XFinish.
(** A call that returned, one that threw, an update that was applied, one that threw. *)
Inductive xobs := XNone | XPushThrew | XApplied (u : U) | XThrown.

Definition set_fn (s : rstate) (b : nat) (u : U) : rstate :=
  RState (pend s) (freeb s) (rend s) (upd (fn s) b (Some u)) (made s) (lost s) (ph s).
(** :64-82 Push *)
Definition x_push (s : rstate) (u : U) (t : option nat) : rstate * xobs :=
  match freeb s with
  | [] =>
      let b := made s in
      match t with
      | Some 0 => (s, XPushThrew)                      (* Message(func): the new expression frees the memory *)
      | Some 1 =>                                      (* :79 p_message->Func = func *)
          (RState (pend s) [] (rend s) (upd (fn s) b (Some u)) (S b) (b :: lost s) (ph s), XPushThrew)
      | _ => (RState (pend s ++ [b]) [] (rend s) (upd (fn s) b (Some u)) (S b) (lost s) (ph s), XNone)
      end
  | b :: f =>
      match t with
      | Some 0 => (RState (pend s) f (rend s) (fn s) (made s) (b :: lost s) (ph s), XPushThrew)
      | _ => (RState (pend s ++ [b]) f (rend s) (upd (fn s) b (Some u)) (made s) (lost s) (ph s), XNone)
      end
  end.
(** :54-61 ClearPending: the functions stay in the messages *)
Definition x_clear (s : rstate) : rstate := RState [] (freeb s ++ pend s) (rend s) (fn s) (made s) (lost s) (ph s).
(** :122-129 PrepareData; the assignment asserts that there is nothing in the destination *)
Definition x_prepare (s : rstate) : res rstate :=
  match rend s, ph s with
  | [], ROutside => Ok (RState [] (freeb s) (pend s) (fn s) (made s) (lost s) (RLoop (pend s)))
  | _, _ => UB
  end.
(** :131-142 FreeData *)
Definition x_free (s : rstate) : rstate :=
  RState (pend s) (freeb s ++ rend s) [] (fold_left (fun f b => upd f b None) (rend s) (fn s)) (made s) (lost s) ROutside.

Definition xstep (s : rstate) (o : xop) : res (rstate * xobs) :=
  let at_ p := RState (pend s) (freeb s) (rend s) (fn s) (made s) (lost s) p in
  match o, ph s with
  | XPush u t, _ => Ok (x_push s u t)
  | XClear, _ => Ok (x_clear s, XNone)
  | XPrepare, _ => let* s1 := x_prepare s in Ok (s1, XNone)
  | XCall, RLoop (b :: l) => match fn s b with Some u => Ok (at_ (RCall l), XApplied u) | None => Throw RuntimeError end
  | XNext, RCall l => Ok (at_ (RLoop l), XNone)
  | XThrow, RCall _ => Ok (x_free s, XThrown)
  | XFinish, RLoop [] => Ok (x_free s, XNone)
  | _, _ => UB
  end.
Fixpoint xrun (s : rstate) (os : list xop) : res (rstate * list xobs) :=
  match os with
  | [] => Ok (s, [])
  | o :: os' => let* (s1, v) := xstep s o in let* (s2, vs) := xrun s1 os' in Ok (s2, v :: vs)
  end.
(** ~MessageQueue (:41-49) of the three lists: the messages that are deleted *)
Definition x_destroy (s : rstate) : list nat := rend s ++ freeb s ++ pend s.
End UQRes.
