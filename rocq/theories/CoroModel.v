(** Model of the coroutine tasks Awl/Coro/ProcessTask.h and Awl/Coro/UpdateTask.h together with an event
    loop that resumes the coroutines suspended on an external event (Awl/Testing/TimeQueue.h for example,
    the order is arbitrary here). *)
From Verif Require Import Common.

(** What a coroutine returns or throws; values and exceptions are numbers. *)
Inductive outcome := OVal (v : nat) | OExn (e : nat).

(** The body of a coroutine.  Its local tasks are numbered in the order in which they are created; the
    continuation of an await says what the body does with the value or with the exception rethrown to it.
    - [CRet], [CThrow]: co_return, an exception that leaves the body;
    - [CTimer]: co_await of something external that always suspends and later resumes the coroutine;
    - [CSpawn b k]: [auto t = b();] - the new coroutine starts at once;
    - [CAwait i k]: [co_await t_i];
    - [CDetach i k]: [t_i.release()], UpdateTask only. *)
Inductive body :=
| CRet (v : nat)
| CThrow (e : nat)
| CTimer (k : body)
| CSpawn (b : body) (k : body)
| CAwait (i : nat) (k : outcome -> body)
| CDetach (i : nat) (k : body).

(** How a frame continues: [Run] it is running, or suspended and continues with this; [Wait c k] it is suspended in
    co_await of [c]; [Done] it is suspended at its final suspend point. *)
Inductive fstate :=
| Run (b : body)
| Wait (c : nat) (k : outcome -> body)
| Done.

(** A coroutine frame with its promise: ProcessTask.h:19-32, UpdateTask.h:65-67.  [locals] are the tasks in the frame,
    an empty task is [None]. *)
Record frame := Frame {
  code : fstate;
  locals : list (option nat);
  awaiting : option nat;      (* m_awaitingCoroutine *)
  result : option outcome;    (* m_value or m_exception *)
  owned : bool;               (* m_owned *)
  alive : bool                (* the frame has not been destroyed *)
}.

(** [stack] are the coroutines that are executing, the innermost first: a coroutine that starts another one continues
    when that one suspends.  [timers] are the coroutines suspended on an external event. *)
Record machine := Machine {
  frames : nat -> frame;
  next : nat;
  stack : list nat;
  timers : list nat;
  destroyed : list nat
}.

(** get_return_object and initial_suspend (ProcessTask.h:45-48, UpdateTask.h:80-83): the body starts at once. *)
Definition new_frame (b : body) : frame := Frame (Run b) [] None None true true.

Definition set_code (f : frame) (c : fstate) : frame := Frame c (locals f) (awaiting f) (result f) (owned f) (alive f).
Definition set_await (f : frame) (h : nat) : frame := Frame (code f) (locals f) (Some h) (result f) (owned f) (alive f).
Definition set_local (f : frame) (i : nat) (x : option nat) : frame :=
  Frame (code f) (set_nth (locals f) i x) (awaiting f) (result f) (owned f) (alive f).
Definition add_local (f : frame) (c : nat) : frame :=
  Frame (code f) (locals f ++ [Some c]) (awaiting f) (result f) (owned f) (alive f).
Definition disown (f : frame) : frame := Frame (code f) (locals f) (awaiting f) (result f) false (alive f).
Definition kill (f : frame) : frame := Frame (code f) (locals f) (awaiting f) (result f) (owned f) false.
Definition complete (f : frame) (o : outcome) : frame := Frame Done [] (awaiting f) (Some o) (owned f) (alive f).

Definition is_done (f : frame) : bool := match code f with Done => true | _ => false end.

(** [m_h.destroy()], ProcessTask.h:228-236, UpdateTask.h:38-46.  Simplification: the destruction of a coroutine that
    has not finished is UB, because its handle is still held by whoever is to resume it. *)
Definition destroy (m : machine) (c : nat) : res machine :=
  let f := frames m c in
  guard (alive f && is_done f)
  (Ok (Machine (upd (frames m) c (kill f)) (next m) (stack m) (timers m) (destroyed m ++ [c]))).

(** The destructors of the local tasks at the end of the body, the last one first. *)
Fixpoint destroy_all (m : machine) (ls : list (option nat)) : res machine :=
  match ls with
  | [] => Ok m
  | x :: ls' =>
    let* m' := destroy_all m ls' in
    match x with Some c => destroy m' c | None => Ok m' end
  end.

(** The awaiting coroutine [p] goes on: await_resume, ProcessTask.h:287-295, reads the promise of [c]; that of
    UpdateTask.h:187-189 does not.  The value is moved out of the promise, which leaves a number as it is. *)
Definition resume_awaiting (update : bool) (m : machine) (c p : nat) (o : outcome) (st : list nat) : res machine :=
  let f := frames m p in
  guard (alive f && (update || alive (frames m c)))
  match code f with
  | Wait _ k => Ok (Machine (upd (frames m) p (set_code f (Run (k o)))) (next m) (p :: st) (timers m) (destroyed m))
  | _ => UB
  end.

(** co_return or an exception: the locals are destroyed, return_value / unhandled_exception store the outcome
    (ProcessTask.h:51-62), and final_suspend (ProcessTask.h:68-92, UpdateTask.h:95-135) destroys a frame that is
    not owned and resumes the awaiting coroutine, if any.  [h] is the running coroutine, [st] the rest of the stack. *)
Definition finish (update : bool) (m : machine) (h : nat) (o : outcome) (st : list nat) : res machine :=
  let* m1 := destroy_all m (locals (frames m h)) in
  let f := frames m1 h in
  let m2 := Machine (upd (frames m1) h (complete f o)) (next m1) st (timers m1) (destroyed m1) in
  let* m3 := if owned f then Ok m2 else destroy m2 h in
  match awaiting f with
  | Some p => resume_awaiting update m3 h p o st
  | None => Ok m3
  end.

(** std::terminate *)
Definition terminate {A} : res A := Throw LogicError.

(** One action of the running coroutine.  [update]: the coroutines are UpdateTasks, an exception that leaves the body
    terminates the program (UpdateTask.h:85-89). *)
Definition tick (update : bool) (m : machine) : res machine :=
  match stack m with
  | [] => UB
  | h :: st =>
    let f := frames m h in
    guard (alive f)
    match code f with
    | Run (CRet v) => finish update m h (OVal v) st
    | Run (CThrow e) => if update then terminate else finish update m h (OExn e) st
    | Run (CTimer k) => Ok (Machine (upd (frames m) h (set_code f (Run k))) (next m) st (timers m ++ [h]) (destroyed m))
    | Run (CSpawn b k) =>
      let c := next m in
      Ok (Machine (upd (upd (frames m) c (new_frame b)) h (add_local (set_code f (Run k)) c)) (S c) (c :: h :: st) (timers m) (destroyed m))
    | Run (CAwait i k) =>
      (* operator co_await, ProcessTask.h:253-299, UpdateTask.h:155-193 *)
      match nth_error (locals f) i with
      | None => UB
      | Some None => terminate
      | Some (Some c) =>
        let fc := frames m c in
        guard (alive fc)
        match awaiting fc with
        | Some _ => terminate
        | None =>
          if is_done fc then
            match result fc with
            | Some o => Ok (Machine (upd (frames m) h (set_code f (Run (k o)))) (next m) (h :: st) (timers m) (destroyed m))
            | None => UB
            end
          else Ok (Machine (upd (upd (frames m) c (set_await fc h)) h (set_code f (Wait c k))) (next m) st (timers m) (destroyed m))
        end
      end
    | Run (CDetach i k) =>
      (* UpdateTask.h:145-153 *)
      match nth_error (locals f) i with
      | None => UB
      | Some None => Ok (Machine (upd (frames m) h (set_code f (Run k))) (next m) (h :: st) (timers m) (destroyed m))
      | Some (Some c) =>
        guard (alive (frames m c))
        (Ok (Machine (upd (upd (frames m) c (disown (frames m c))) h (set_local (set_code f (Run k)) i None)) (next m) (h :: st) (timers m) (destroyed m)))
      end
    | Wait _ _ | Done => UB
    end
  end.

(** The event loop resumes one of the suspended coroutines; [h] is at position [n] of [timers]. *)
Definition fire (m : machine) (n : nat) : res machine :=
  match nth_error (timers m) n with
  | None => UB
  | Some h =>
    guard (alive (frames m h))
    (Ok (Machine (frames m) (next m) [h] (firstn n (timers m) ++ skipn (S n) (timers m)) (destroyed m)))
  end.

(** The program: the main coroutine is started, then the event loop runs.  [MFire] can happen when nothing executes. *)
Inductive mstep (update : bool) : machine -> res machine -> Prop :=
| MTick m : stack m <> [] -> mstep update m (tick update m)
| MFire m n : stack m = [] -> n < length (timers m) -> mstep update m (fire m n).

Inductive mexec (update : bool) : machine -> res machine -> Prop :=
| MNil m : mexec update m (Ok m)
| MCons m m' r : mstep update m (Ok m') -> mexec update m' r -> mexec update m r
| MStop m r : mstep update m r -> (forall m', r <> Ok m') -> mexec update m r.

Definition minit (b : body) : machine := Machine (upd (fun _ => new_frame (CRet 0)) 0 (new_frame b)) 1 [0] [] [].
