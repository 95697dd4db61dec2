(** Model of Awl/Coro/Generator.h. *)
From Verif Require Import Common.

Section Generator.

(** A coroutine body over the states [S]: what it does from one suspension point to the next one. *)
Variables (S V : Type).

Inductive gout (T : Type) :=
| GYield (v : V) (s : T)
| GReturn
| GThrow (e : exn).
Arguments GYield {T}. Arguments GReturn {T}. Arguments GThrow {T}.

Inductive gstate := GSuspended (s : S) | GDone.

(** The coroutine frame with its promise, Generator.h:80-84.  [gvalue] is what [m_value] points to, if that object is
    alive: the operand of co_yield lives until the coroutine is resumed. *)
Record gframe := GFrame { gcode : gstate; gvalue : option V; gexn : option exn }.

(** The coroutine function returns, Generator.h:36 and 243-248: the body has not started. *)
Definition gcreate (s : S) : gframe := GFrame (GSuspended s) None None.

Variable step : S -> res (gout S).

(** [m_coroutine.resume()]: the body runs to the next co_yield (Generator.h:42-52), to its end (37, 59-61) or to an
    exception (54-57). *)
Definition gresume (f : gframe) : res gframe :=
  match gcode f with
  | GDone => UB
  | GSuspended s =>
    let* o := step s in
    match o with
    | GYield v s' => Ok (GFrame (GSuspended s') (Some v) (gexn f))
    | GReturn => Ok (GFrame GDone None (gexn f))
    | GThrow e => Ok (GFrame GDone None (Some e))
    end
  end.

Definition gdone (f : gframe) : bool := match gcode f with GDone => true | _ => false end.

(** Resume and rethrow, Generator.h:134-138 and 203-207; the frame and the exception thrown, if any. *)
Definition gadvance (f : gframe) : res (gframe * option exn) :=
  let* f' := gresume f in
  if gdone f' then Ok (f', gexn f') else Ok (f', None).

(** generator::begin, Generator.h:199-211.  A generator is [None] when it is empty; the iterator is the handle. *)
Definition gbegin (g : option gframe) : res (option gframe * option exn) :=
  match g with
  | None => Ok (None, None)
  | Some f => let* (f', x) := gadvance f in Ok (Some f', x)
  end.

(** operator++ of the iterator, Generator.h:132-141 *)
Definition gnext (g : option gframe) : res (option gframe * option exn) :=
  match g with
  | None => UB
  | Some f => let* (f', x) := gadvance f in Ok (Some f', x)
  end.

(** Comparison with the sentinel, Generator.h:112-115 *)
Definition gend (g : option gframe) : bool := match g with None => true | Some f => gdone f end.

(** operator* of the iterator, Generator.h:63-66 and 149-152 *)
Definition gderef (g : option gframe) : res V :=
  match g with
  | None => UB
  | Some f => match gvalue f with Some v => Ok v | None => UB end
  end.

(** How a range-based for loop ends: at the end of the generator, by a break, by an exception of the generator or because it
    has been observed for long enough. *)
Inductive lend := LEnd | LBreak | LRaise (e : exn) | LMore.

(** for (auto&& v : g) body, after begin.  The body is [f]: it returns the new state of the loop and whether the loop
    goes on. *)
Fixpoint gloop {A} (f : A -> V -> A * bool) (fuel : nat) (acc : A) (g : option gframe) : res (A * option gframe * lend) :=
  match fuel with
  | 0 => Ok (acc, g, LMore)
  | Datatypes.S fuel' =>
    if gend g then Ok (acc, g, LEnd)
    else
      let* v := gderef g in
      let (acc', go) := f acc v in
      if go then
        let* (g', x) := gnext g in
        match x with
        | Some e => Ok (acc', g', LRaise e)
        | None => gloop f fuel' acc' g'
        end
      else Ok (acc', g, LBreak)
  end.

Definition gfor {A} (f : A -> V -> A * bool) (fuel : nat) (acc : A) (g : option gframe) : res (A * option gframe * lend) :=
  let* (g', x) := gbegin g in
  match x with
  | Some e => Ok (acc, g', LRaise e)
  | None => gloop f fuel acc g'
  end.

End Generator.
Arguments GYield {V T}. Arguments GReturn {V T}. Arguments GThrow {V T}.
Arguments GSuspended {S}. Arguments GDone {S}.
Arguments GFrame {S V}. Arguments gcode {S V}. Arguments gvalue {S V}. Arguments gexn {S V}. Arguments gcreate {S V}.
Arguments gresume {S V}. Arguments gadvance {S V}. Arguments gbegin {S V}. Arguments gnext {S V}. Arguments gend {S V}.
Arguments gderef {S V}. Arguments gdone {S V}. Arguments gloop {S V} step {A}. Arguments gfor {S V} step {A}.

(** fmap, Generator.h:251-258, as the body of a coroutine whose state is the source and whether the loop has begun;
    [func] may throw. *)
Definition fmap_step {S V W} (step : S -> res (gout V S)) (func : V -> exn + W) (st : bool * option (gframe S V)) :
  res (gout W (bool * option (gframe S V))) :=
  let (begun, g) := st in
  let* (g', x) := if begun then gnext step g else gbegin step g in
  match x with
  | Some e => Ok (GThrow e)
  | None =>
    if gend g' then Ok GReturn
    else
      let* v := gderef g' in
      match func v with
      | inl e => Ok (GThrow e)
      | inr w => Ok (GYield w (true, g'))
      end
  end.
