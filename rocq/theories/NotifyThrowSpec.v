(** What notifications with observers that throw or return false do, on plain sequences of observers. *)
From Verif Require Import Common QListModel QListSpec NotifyThrowModel.

(** ** In general *)
(** A notification calls those that were subscribed when it began, once each and in their order, up to the first that throws (or
    returns false, if that ends it).  The operations meet their preconditions.  When an observer returns and others are to be
    called, these are subscribed as they were; what an observer does that throws, or that ends the notification by returning false,
    is not restricted in this way. *)
Section Spec.
Context (cb : list call -> nat -> nat -> list act).
Inductive did : qspec -> list call -> list act -> qspec -> list call -> out -> Prop :=
| D_end e log : did e log [] e log Next
| D_throw e log r : did e log (AThrow :: r) e log Thrown
| D_return e log b r : did e log (AReturn b :: r) e log (Returned b)
| D_op e log o r e1 v e' log' x : sstep e o = Some (e1, v) -> did e1 log r e' log' x -> did e log (AOp o :: r) e' log' x
| D_notify e log l r s e1 log1 b e' log' x : find_list (lists e) l = Some s -> told false e log l s e1 log1 (Returned b) ->
    did e1 log1 r e' log' x -> did e log (ANotify l :: r) e' log' x
| D_notify_throw e log l r s e1 log1 : find_list (lists e) l = Some s -> told false e log l s e1 log1 Thrown ->
    did e log (ANotify l :: r) e1 log1 Thrown
| D_while e log l no r s e1 log1 (b : bool) e' log' x : find_list (lists e) l = Some s -> told true e log l s e1 log1 (Returned b) ->
    did e1 log1 (if b then r else no ++ r) e' log' x -> did e log (AWhile l no :: r) e' log' x
| D_while_throw e log l no r s e1 log1 : find_list (lists e) l = Some s -> told true e log l s e1 log1 Thrown ->
    did e log (AWhile l no :: r) e1 log1 Thrown
| D_try e log body h r e1 log1 e' log' x : did e log body e1 log1 Next -> did e1 log1 r e' log' x -> did e log (ATry body h :: r) e' log' x
| D_try_return e log body h r e1 log1 b : did e log body e1 log1 (Returned b) -> did e log (ATry body h :: r) e1 log1 (Returned b)
| D_catch e log body h r e1 log1 e' log' x : did e log body e1 log1 Thrown -> did e1 log1 (h ++ r) e' log' x -> did e log (ATry body h :: r) e' log' x
with told : bool -> qspec -> list call -> nat -> list nat -> qspec -> list call -> out -> Prop :=
| T_end w e log l : told w e log l [] e log (Returned true)
| T_throw w e log l n rest e1 log1 : did e (log ++ [(l, n)]) (cb log l n) e1 log1 Thrown -> told w e log l (n :: rest) e1 log1 Thrown
| T_false e log l n rest e1 log1 : did e (log ++ [(l, n)]) (cb log l n) e1 log1 (Returned false) -> told true e log l (n :: rest) e1 log1 (Returned false)
| T_next (w : bool) e log l n rest e1 log1 x pre e' log' v : did e (log ++ [(l, n)]) (cb log l n) e1 log1 x ->
    x <> Thrown -> (w = true -> x <> Returned false) -> find_list (lists e1) l = Some (pre ++ rest) ->
    told w e1 log1 l rest e' log' v -> told w e log l (n :: rest) e' log' v.
End Spec.

(** ** Cascades *)
(** Observers that may unsubscribe themselves, then notify observables of a lower level, plainly, in a try block or with
    NotifyWhileTrue whose false they pass on, and then return or throw *)
Inductive mode := Plain | Guarded | Asking.
Notation world := ((nat -> list nat) * list call)%type.
Section Cascade.
Context (leave : list call -> nat -> bool) (targets : list call -> nat -> nat -> list (nat * mode)) (fin : list call -> nat -> nat -> out).
Definition sends (tm : nat * mode) : act :=
  match snd tm with Plain => ANotify (fst tm) | Guarded => ATry [ANotify (fst tm)] [] | Asking => AWhile (fst tm) [AReturn false] end.
Definition ends (o : out) : list act := match o with Next => [] | Returned b => [AReturn b] | Thrown => [AThrow] end.
Definition forwarding (log : list call) (l n : nat) : list act :=
  (if leave log n then [AOp (QExclude n)] else []) ++ map sends (targets log l n) ++ ends (fin log l n).

Section Level.
Context (rec : bool -> world -> nat -> world * out).
Fixpoint forward (ts : list (nat * mode)) (x : out) (wd : world) : world * out :=
  match ts with
  | [] => (wd, x)
  | (t, m) :: r =>
    let (wd1, v) := rec match m with Asking => true | _ => false end wd t in
    match v, m with
    | Thrown, Guarded => forward r x wd1
    | Thrown, _ => (wd1, Thrown)
    | Returned false, Asking => (wd1, Returned false)
    | _, _ => forward r x wd1
    end
  end.
Fixpoint each (w : bool) (l : nat) (s : list nat) (wd : world) : world * out :=
  match s with
  | [] => (wd, Returned true)
  | n :: rest =>
    let (subs, log) := wd in
    let subs1 := if leave log n then fun l' => if l' =? l then without n (subs l) else subs l' else subs in
    let (wd1, x) := forward (targets log l n) (fin log l n) (subs1, log ++ [(l, n)]) in
    match x with
    | Thrown => (wd1, Thrown)
    | Returned false => if w then (wd1, Returned false) else each w l rest wd1
    | _ => each w l rest wd1
    end
  end.
End Level.
Fixpoint cascade (depth : nat) (w : bool) (wd : world) (l : nat) : world * out :=
  match depth with O => (wd, Returned true) | S d => each (cascade d) w l (fst wd l) wd end.
End Cascade.

(** ** Observers that do nothing but return or throw *)
(** The observers up to the first that ends the loop *)
Fixpoint upto (stop : nat -> bool) (s : list nat) : list nat :=
  match s with [] => [] | n :: r => if stop n then [n] else n :: upto stop r end.
Definition throws (o : out) : bool := match o with Thrown => true | _ => false end.
Definition says_no (o : out) : bool := match o with Returned false => true | _ => false end.
