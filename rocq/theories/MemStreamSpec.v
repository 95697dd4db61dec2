(** Tapes: what the memory streams are for.  No pointers and no heap. *)
From Verif Require Import Common MemStreamModel.

Record tape := Tape { tkd : skind; tdata : list Z; tpos : nat }.
Definition put (bs : list Z) (t : tape) : tape :=
  Tape (tkd t) (firstn (tpos t) (tdata t) ++ bs ++ skipn (tpos t + length bs) (tdata t)) (tpos t + length bs).
Definition next (n : nat) (t : tape) : list Z := firstn n (skipn (tpos t) (tdata t)).
Definition move (n : nat) (t : tape) : tape := Tape (tkd t) (tdata t) (tpos t + n).
Definition fits (n : nat) (t : tape) : bool := tpos t + n <=? length (tdata t).
Definition divides (w n : nat) : bool := Nat.eqb (n mod w) 0.
(** Integers are copied to and from aligned addresses only. *)
Definition int_copy (n : nat) : bool := match n with 2 | 4 | 8 => true | _ => false end.
Definition write_ok (t : tape) (al n : nat) : bool :=
  fits n t && match tkd t with SwitchOut => negb (int_copy n) || divides n (tpos t) && divides n al | _ => true end.
Definition readable (t : tape) : bool := match tkd t with TrivialIo => true | _ => false end.

Definition tapes := nat -> option tape.
(** None: the program is not allowed to do this. *)
Definition tape_step (e : tapes) (op : sop) : option (tapes * sout) :=
  let on i (p : tape -> bool) (f : tape -> tapes * sout) := match e i with Some t => if p t then Some (f t) else None | None => None end in
  match op with
  | SNew i k n => match e i with None => Some (upd e i (Some (Tape k (repeat 0%Z n) 0)), SNone) | Some _ => None end
  | SCopy _ _ | SMove _ _ => None
  | SDestroy i => on i (fun _ => true) (fun _ => (upd e i None, SNone))
  | SWrite i al bs => on i (fun t => write_ok t al (length bs)) (fun t => (upd e i (Some (put bs t)), SNone))
  | SPut i bs => on i (fun t => readable t && fits (length bs) t && divides (length bs) (tpos t)) (fun t => (upd e i (Some (put bs t)), SNone))
  | SRead i n => on i readable (fun t => (upd e i (Some (move (length (next n t)) t)), SBytes (next n t)))
  | SGet i w => on i (fun t => readable t && fits w t && divides w (tpos t)) (fun t => (upd e i (Some (move w t)), SBytes (next w t)))
  | SReset i => on i (fun _ => true) (fun t => (upd e i (Some (Tape (tkd t) (tdata t) 0)), SNone))
  | SLength i => on i (fun _ => true) (fun t => (e, SNum (tpos t)))
  | SEnd i => on i readable (fun t => (e, SBool (Nat.eqb (tpos t) (length (tdata t)))))
  end.
Fixpoint tape_run (e : tapes) (ops : list sop) : option (tapes * list sout) :=
  match ops with
  | [] => Some (e, [])
  | o :: r => match tape_step e o with Some (e1, v) => match tape_run e1 r with Some (e2, vs) => Some (e2, v :: vs) | None => None end | None => None end
  end.
(** Consecutive pieces of the given lengths; the last ones may be short. *)
Fixpoint pieces (ns : list nat) (l : list Z) : list (list Z) :=
  match ns with
  | [] => []
  | n :: r => firstn n l :: pieces r (skipn n l)
  end.
(** Programs that neither copy nor move a stream *)
Definition no_copy (op : sop) : bool := match op with SCopy _ _ | SMove _ _ => false | _ => true end.
