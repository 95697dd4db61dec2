(** Model of the tasks Awl/Coro/ProcessTask.h and Awl/Coro/UpdateTask.h in variables that ordinary code and all
    coroutines use: moves, is_ready, get, done, free, release, destruction of coroutines that are suspended. *)
From Verif Require Import Common CoroModel.

(** What a statement gives: nothing, a bool, a value or exception, or a value that had been moved from *)
Inductive reply := RUnit | RBool (b : bool) | ROut (o : outcome) | RMoved.

(** The body of a coroutine: co_return, an exception that leaves it, a suspension until an external event,
    co_await of the task in a variable, and a statement.  Statements:
    - [OStart x b]: [x = b();] - the new coroutine runs up to its first suspension, then its task is moved to [x];
    - [OMove x y]: [x = std::move(y);] (a move construction if [x] is empty);
    - [OFree x]: [x.free()] or the end of the life of [x];
    - [OReady], [OGet]: is_ready(), get() of ProcessTask;  [ODone], [ORelease]: done(), release() of UpdateTask. *)
Inductive tbody :=
| TRet (v : nat)
| TThrow (e : nat)
| TTimer (k : tbody)
| TAwait (x : nat) (k : reply -> tbody)
| TDo (o : top) (k : reply -> tbody)
with top :=
| OStart (x : nat) (b : tbody) | OMove (x y : nat) | OFree (x : nat) | OReady (x : nat) | OGet (x : nat) | ODone (x : nat) | ORelease (x : nat).
(** Ordinary code; [MFire n k] resumes the coroutine number [n] of those that wait for an event. *)
Inductive tmain := MEnd | MDo (o : top) (k : reply -> tmain) | MFire (n : nat) (k : tmain).

Inductive tstate := TRun (b : tbody) | TWait (c : nat) (k : reply -> tbody) | TDone.
(** ProcessTask.h:19-32, UpdateTask.h:65-67; [taken]: the value has been moved out of the promise *)
Record tframe := TFrame { tcode : tstate; tawaiting : option nat; tresult : option outcome; taken : bool; towned : bool; talive : bool }.
(** The call stack, the innermost function first: coroutines, the assignment of a new task, ordinary code *)
Inductive tactive := ACoro (h : nat) | AAssign (x c : nat) | AMain (p : tmain).
Record tmachine := TMachine { tframes : nat -> tframe; tnext : nat; tvars : nat -> option nat; tstack : list tactive; ttimers : list nat; tdestroyed : list nat }.

Definition new_tframe (b : tbody) : tframe := TFrame (TRun b) None None false true true.
Definition with_code (f : tframe) (s : tstate) : tframe := TFrame s (tawaiting f) (tresult f) (taken f) (towned f) (talive f).
Definition tdone (f : tframe) : bool := match tcode f with TDone => true | _ => false end.
Definition running (h : nat) (st : list tactive) : bool := existsb (fun a => match a with ACoro c => Nat.eqb c h | _ => false end) st.

Section TaskVar.
Context (update : bool).
Definition set_frame (m : tmachine) (h : nat) (f : tframe) : tmachine := TMachine (upd (tframes m) h f) (tnext m) (tvars m) (tstack m) (ttimers m) (tdestroyed m).
Definition set_var (m : tmachine) (x : nat) (v : option nat) : tmachine := TMachine (tframes m) (tnext m) (upd (tvars m) x v) (tstack m) (ttimers m) (tdestroyed m).
Definition set_stack (m : tmachine) (st : list tactive) : tmachine := TMachine (tframes m) (tnext m) (tvars m) st (ttimers m) (tdestroyed m).

(** m_h.destroy(): the coroutine must be suspended and not destroyed yet. *)
Definition tdestroy (m : tmachine) (c : nat) : res tmachine :=
  let f := tframes m c in
  guard (talive f && negb (running c (tstack m)))
  (Ok (TMachine (upd (tframes m) c (TFrame (tcode f) (tawaiting f) (tresult f) (taken f) (towned f) false)) (tnext m) (tvars m) (tstack m) (ttimers m) (tdestroyed m ++ [c]))).
(** free(), ProcessTask.h:228-236, UpdateTask.h:38-46 *)
Definition tfree (m : tmachine) (x : nat) : res tmachine :=
  match tvars m x with None => Ok m | Some c => let* m1 := tdestroy m c in Ok (set_var m1 x None) end.
(** operator = (Task&&), ProcessTask.h:185-192, UpdateTask.h:23-30; the source is another variable or [x] itself *)
Definition tmove (m : tmachine) (x y : nat) : res tmachine :=
  let* m1 := tfree m x in let h := tvars m1 y in Ok (set_var (set_var m1 y None) x h).
(** [x = temporary] where the temporary holds [c]; its destructor finds nothing *)
Definition tassign (m : tmachine) (x c : nat) : res tmachine := let* m1 := tfree m x in Ok (set_var m1 x (Some c)).
(** is_ready(), ProcessTask.h:201-208 *)
Definition tready (m : tmachine) (x : nat) : res reply :=
  match tvars m x with
  | None => terminate
  | Some c => guard (talive (tframes m c)) (Ok match tresult (tframes m c) with Some (OExn e) => ROut (OExn e) | Some (OVal _) => RBool true | None => RBool false end)
  end.
(** get(), ProcessTask.h:210-217: std::move of the value, the optional stays engaged *)
Definition tget (m : tmachine) (x : nat) : res (tmachine * reply) :=
  match tvars m x with
  | None => terminate
  | Some c =>
    let f := tframes m c in
    guard (talive f)
    match tresult f with
    | None => UB
    | Some (OExn e) => Ok (m, ROut (OExn e))
    | Some (OVal v) => Ok (set_frame m c (TFrame (tcode f) (tawaiting f) (tresult f) true (towned f) (talive f)), if taken f then RMoved else ROut (OVal v))
    end
  end.
(** done(), release(), UpdateTask.h:53-56, 145-153 *)
Definition tis_done (m : tmachine) (x : nat) : res reply :=
  match tvars m x with None => UB | Some c => guard (talive (tframes m c)) (Ok (RBool (tdone (tframes m c)))) end.
Definition trelease (m : tmachine) (x : nat) : res tmachine :=
  match tvars m x with
  | None => Ok m
  | Some c => let f := tframes m c in guard (talive f) (Ok (set_var (set_frame m c (TFrame (tcode f) (tawaiting f) (tresult f) (taken f) false (talive f))) x None))
  end.

(** A statement: the machine, the reply, and what has to run before the next statement.  Statements of the other
    kind of task do not compile: they terminate the model. *)
Definition tstmt (m : tmachine) (o : top) : res (tmachine * reply * list tactive) :=
  match o with
  | OStart x b => let c := tnext m in Ok (TMachine (upd (tframes m) c (new_tframe b)) (S c) (tvars m) (tstack m) (ttimers m) (tdestroyed m), RUnit, [ACoro c; AAssign x c])
  | OMove x y => let* m1 := tmove m x y in Ok (m1, RUnit, [])
  | OFree x => let* m1 := tfree m x in Ok (m1, RUnit, [])
  | OReady x => if update then terminate else let* r := tready m x in Ok (m, r, [])
  | OGet x => if update then terminate else let* (m1, r) := tget m x in Ok (m1, r, [])
  | ODone x => if update then let* r := tis_done m x in Ok (m, r, []) else terminate
  | ORelease x => if update then let* m1 := trelease m x in Ok (m1, RUnit, []) else terminate
  end.
(** await_resume, ProcessTask.h:287-295, UpdateTask.h:187-189 *)
Definition tresume (m : tmachine) (c : nat) : res (tmachine * reply) :=
  if update then Ok (m, RUnit)
  else
    let f := tframes m c in
    guard (talive f)
    match tresult f with
    | None => UB
    | Some (OExn e) => Ok (m, ROut (OExn e))
    | Some (OVal v) => Ok (set_frame m c (TFrame (tcode f) (tawaiting f) (tresult f) true (towned f) (talive f)), if taken f then RMoved else ROut (OVal v))
    end.
(** The end of a body and final_suspend, ProcessTask.h:51-92, UpdateTask.h:95-135; [st] is the rest of the stack *)
Definition tfinish (m : tmachine) (h : nat) (o : outcome) (st : list tactive) : res tmachine :=
  let f := tframes m h in
  let m1 := TMachine (upd (tframes m) h (TFrame TDone (tawaiting f) (Some o) (taken f) (towned f) (talive f))) (tnext m) (tvars m) st (ttimers m) (tdestroyed m) in
  let* m2 := if towned f then Ok m1 else tdestroy m1 h in
  match tawaiting f with
  | None => Ok m2
  | Some p =>
    guard (talive (tframes m2 p))
    (let* (m3, r) := tresume m2 h in
     let fp := tframes m3 p in
     match tcode fp with
     | TWait _ k => Ok (set_stack (set_frame m3 p (with_code fp (TRun (k r)))) (ACoro p :: st))
     | _ => UB
     end)
  end.
(** One action of the innermost function *)
Definition ttick (m : tmachine) : res tmachine :=
  match tstack m with
  | [] => Ok m
  | AMain MEnd :: st => Ok (set_stack m st)
  | AMain (MDo o k) :: st => let* (p, a) := tstmt m o in let (m1, r) := p : tmachine * reply in Ok (set_stack m1 (a ++ AMain (k r) :: st))
  | AMain (MFire n k) :: st =>
    match nth_error (ttimers m) n with
    | None => Ok (set_stack m (AMain k :: st))
    | Some h =>
      guard (talive (tframes m h))
      (Ok (TMachine (tframes m) (tnext m) (tvars m) (ACoro h :: AMain k :: st) (firstn n (ttimers m) ++ skipn (S n) (ttimers m)) (tdestroyed m)))
    end
  | AAssign x c :: st => let* m1 := tassign m x c in Ok (set_stack m1 st)
  | ACoro h :: st =>
    let f := tframes m h in
    guard (talive f)
    match tcode f with
    | TRun (TRet v) => tfinish m h (OVal v) st
    | TRun (TThrow e) => if update then terminate else tfinish m h (OExn e) st
    | TRun (TTimer k) => let m1 := set_frame m h (with_code f (TRun k)) in Ok (TMachine (tframes m1) (tnext m) (tvars m) st (ttimers m ++ [h]) (tdestroyed m))
    | TRun (TAwait x k) =>
      (* operator co_await, ProcessTask.h:253-299, UpdateTask.h:155-193 *)
      match tvars m x with
      | None => terminate
      | Some c =>
        let fc := tframes m c in
        guard (talive fc)
        match tawaiting fc with
        | Some _ => terminate
        | None =>
          if tdone fc then let* (m1, r) := tresume m c in Ok (set_frame m1 h (with_code (tframes m1 h) (TRun (k r))))
          else
            let m1 := set_frame m c (TFrame (tcode fc) (Some h) (tresult fc) (taken fc) (towned fc) (talive fc)) in
            Ok (set_stack (set_frame m1 h (with_code (tframes m1 h) (TWait c k))) st)
        end
      end
    | TRun (TDo o k) =>
      (* the statement is executed before the frame goes on; the frame stays on the stack *)
      let* (p, a) := tstmt m o in
      let (m1, r) := p : tmachine * reply in
      Ok (set_stack (set_frame m1 h (with_code (tframes m1 h) (TRun (k r)))) (a ++ ACoro h :: st))
    | TWait _ _ | TDone => UB
    end
  end.
Fixpoint trun (n : nat) (m : tmachine) : res tmachine := match n with O => Ok m | S k => let* m1 := ttick m in trun k m1 end.
Definition tinit (p : tmain) : tmachine := TMachine (fun _ => new_tframe (TRet 0)) 0 (fun _ => None) [AMain p] [] [].
End TaskVar.
