(** Model of Awl/Aggregator.h. *)
From Verif Require Import Common.

Section Aggregator.
(** The values of all slots are taken from one type.  [moved i v] is what [std::move] into the
    parameter of the function leaves behind in slot [i]: [v] itself for types that are copied or
    passed by const reference, an unspecified but valid value (an empty string in practice)
    otherwise. *)
Context {V : Type} (moved : nat -> V -> V).

(** Aggregator.h:72-76, the function is represented by the log of its calls. *)
Record agg := Agg { m_values : list (option V); m_cancelled : bool }.

(** Aggregator.h:29-31, [n] slots. *)
Definition agg_init (n : nat) : agg := Agg (repeat None n) false.

(** Aggregator.h:44-57 [all]: the flag [found] is set by the first empty slot. *)
Definition all (a : agg) : bool :=
  negb (fold_left (fun found opt => match opt with None => true | Some _ => found end) (m_values a) false).

(** Aggregator.h:66-70 [call]: the arguments are the values of all slots, and all are moved from.
    The dereference of an empty optional is undefined. *)
Fixpoint take (i : nat) (vs : list (option V)) : res (list V * list (option V)) :=
  match vs with
  | [] => Ok ([], [])
  | None :: _ => UB
  | Some v :: vs' => let* (args, rest) := take (S i) vs' in Ok (v :: args, Some (moved i v) :: rest)
  end.

(** Aggregator.h:33-42 [set<i>]; the index is checked at compile time.  Returns the arguments of the
    call, if there is one.  The function neither throws nor calls the aggregator. *)
Definition set_ (a : agg) (i : nat) (v : V) : res (agg * option (list V)) :=
  guard (i <? length (m_values a))
  (let a' := Agg (set_nth (m_values a) i (Some v)) (m_cancelled a) in
   if all a' && negb (m_cancelled a') then
     let* (args, rest) := take 0 (m_values a') in Ok (Agg rest (m_cancelled a'), Some args)
   else Ok (a', None)).

(** Aggregator.h:59-62 [cancel]. *)
Definition cancel (a : agg) : agg := Agg (m_values a) true.

Inductive aop := ASet (i : nat) (v : V) | ACancel.

(** A history and the calls it made, one entry per operation. *)
Fixpoint arun (a : agg) (os : list aop) : res (list (option (list V))) :=
  match os with
  | [] => Ok []
  | o :: os' =>
    let* (a', c) := match o with ASet i v => set_ a i v | ACancel => Ok (cancel a, None) end in
    let* cs := arun a' os' in Ok (c :: cs)
  end.
End Aggregator.
