(** Specification of concurrent saves: an object that changes at once, at the end of each
    modification, and saves that take one of the values it has during the call. *)
From Verif Require Import Common AStoreModel ASConcModel.

Section Spec.
Context (v0 : list Z).

(** The value of the object after these events (newest first). *)
Fixpoint current (l : list event) : list Z :=
  match l with [] => v0 | EPub v :: _ => v | _ :: l' => current l' end.
(** The values that the object has had since thread [t] called Save, while it has not
    returned. *)
Fixpoint seen (t : nat) (l : list event) : option (list (list Z)) :=
  match l with
  | [] => None
  | ECall u :: l' => if u =? t then Some [current l'] else seen t l'
  | ERet u _ :: l' | EThrew u :: l' => if u =? t then None else seen t l'
  | EPub v :: l' => option_map (cons v) (seen t l')
  end.
(** The value of the last save that returned. *)
Fixpoint last_saved (l : list event) : list Z :=
  match l with [] => v0 | ERet _ v :: _ => v | _ :: l' => last_saved l' end.

(** Calls and returns alternate, and what a save has saved is a value that the object had
    during the call. *)
Fixpoint lawful (l : list event) : Prop :=
  match l with
  | [] => True
  | e :: l' => lawful l' /\
      match e with
      | ECall t => seen t l' = None
      | ERet t v => exists vs, seen t l' = Some vs /\ In v vs
      | EThrew t => seen t l' <> None
      | EPub _ => True
      end
  end.
End Spec.
