(** Model of Awl/Aggregator.h with functions that throw or use the aggregator themselves. *)
From Verif Require Import Common AggregatorModel.

Section AggRe.
Context {V : Type} (moved : nat -> V -> V).

(** What a call of the function does: it uses the aggregator, sees whether this has thrown, and goes
    on; at last it returns or throws ([Done true]). *)
Inductive body := Done (throws : bool) | Do (o : @aop V) (k : bool -> body).

(** [f n args] is what the call number [n] with these arguments does.  The arguments of the function
    are passed by value: they have been moved from the slots when its body begins. *)
Context (f : nat -> list V -> body).

(** The operations and the calls that they have made, in the order in which they have begun *)
Notation events := (list (@aop V * option (list V))).
(** The aggregator, the number of calls made, whether an exception is thrown, and the events;
    [None] if the stack is not deep enough *)
Notation outcome := (res (option (@agg V * nat * bool * events))).

Definition first_event (e : @aop V * option (list V)) (r : outcome) : outcome :=
  let* x := r in Ok (match x with Some (a, n, t, es) => Some (a, n, t, e :: es) | None => None end).

(** The statements of a function body, given how an operation is executed *)
Fixpoint run_body (op : nat -> @agg V -> @aop V -> outcome) (n : nat) (a : @agg V) (b : body) : outcome :=
  match b with
  | Done t => Ok (Some (a, n, t, []))
  | Do o k =>
    let* x := op n a o in
    match x with
    | None => Ok None
    | Some (a1, n1, t, es) =>
      let* y := run_body op n1 a1 (k t) in
      Ok (match y with Some (a2, n2, t2, es2) => Some (a2, n2, t2, es ++ es2) | None => None end)
    end
  end.

(** Aggregator.h:33-42 and 59-62.  [depth] is the number of operations that the stack has room for.
    [set_] is everything up to the body of the function; when that throws, nothing is undone. *)
Fixpoint run_op (depth : nat) (n : nat) (a : @agg V) (o : @aop V) : outcome :=
  match depth with
  | 0 => Ok None
  | S d =>
    match o with
    | ACancel => Ok (Some (cancel a, n, false, [(o, None)]))
    | ASet i v =>
      let* (a1, c) := set_ moved a i v in
      match c with
      | None => Ok (Some (a1, n, false, [(o, None)]))
      | Some args => first_event (o, Some args) (run_body (run_op d) (S n) a1 (f n args))
      end
    end
  end.

(** A program that catches what the operations throw: for each of them, whether it has thrown *)
Fixpoint run_ops (depth : nat) (n : nat) (a : @agg V) (os : list (@aop V)) : res (option (@agg V * list bool * events)) :=
  match os with
  | [] => Ok (Some (a, [], []))
  | o :: r =>
    let* x := run_op depth n a o in
    match x with
    | None => Ok None
    | Some (a1, n1, t, es) =>
      let* y := run_ops depth n1 a1 r in
      Ok (match y with Some (a2, ts, es2) => Some (a2, t :: ts, es ++ es2) | None => None end)
    end
  end.
End AggRe.
