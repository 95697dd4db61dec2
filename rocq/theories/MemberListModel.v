(** Model of the list of member names, Awl/Reflection.h (class MemberList). *)
From Verif Require Import Common.

Definition comma : nat := 44.
Definition space : nat := 32.

(** Reflection.h:82-117 [traverse].  A pointer into the text is an index; [cs] is what [p] points to, up to
    the terminating zero.  The result is the list of the calls of [accept].  A failed [assert] and the use
    of a null [p_start] are undefined. *)
Fixpoint traverse (cs : list nat) (p : nat) (p_start : option nat) (eaten_separator : bool) : res (list (nat * nat)) :=
  match cs with
  | [] =>
    match p_start with
    | None => UB
    | Some st => if Nat.eqb p st then Ok [] else guard (st <? p) (Ok [(st, p - st)])
    end
  | c :: cs' =>
    let other := if eaten_separator then traverse cs' (p + 1) (Some p) false
                 else traverse cs' (p + 1) p_start eaten_separator in
    if Nat.eqb c comma then
      match cs' with
      | d :: cs'' =>
        if Nat.eqb d space then
          match p_start with
          | None => UB
          | Some st => guard (st <? p) (let* rest := traverse cs'' (p + 2) None true in Ok ((st, p - st) :: rest))
          end
        else other
      | [] => other
      end
    else other
  end.

(** [std::string(p, len)] *)
Definition substring (va : list nat) (st len : nat) : list nat := firstn len (skipn st va).

(** Reflection.h:119-126 [getArgCount]. *)
Definition getArgCount (va : list nat) : res nat := let* l := traverse va 0 (Some 0) false in Ok (length l).

(** Reflection.h:128-143 [getArgNames]. *)
Definition getArgNames (va : list nat) : res (list (list nat)) :=
  let* count := getArgCount va in
  let* l := traverse va 0 (Some 0) false in
  let v := map (fun x => substring va (fst x) (snd x)) l in
  guard (Nat.eqb (length v) count) (Ok v).

Definition string_eqb (a b : list nat) : bool := if list_eq_dec Nat.eq_dec a b then true else false.

(** Reflection.h:43-46 and 58-68 [find], [find_index]; [None] is [NotAnIndex]. *)
Fixpoint find_index (v : list (list nat)) (name : list nat) : option nat :=
  match v with
  | [] => None
  | x :: v' => if string_eqb x name then Some 0 else option_map S (find_index v' name)
  end.
