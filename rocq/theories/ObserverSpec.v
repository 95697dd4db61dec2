(** Specification of notification on sequences: go to the successor that the
    observer had when it was called. *)
From Verif Require Import Common QListModel QListSpec.

Fixpoint next_of (n : nat) (s : list nat) : option nat :=
  match s with [] => None | x :: r => if Nat.eqb x n then hd_error r else next_of n r end.

Fixpoint snotify (cb : list nat -> nat -> list qop) (ans : list nat -> nat -> bool)
  (fuel : nat) (e : qspec) (l : nat) (cur : option nat) (log : list nat) : option (qspec * list nat * bool) :=
  match fuel with
  | O => None
  | S f =>
      match cur with
      | None => Some (e, log, true)
      | Some n =>
          match find_list (lists e) l with
          | None => None
          | Some s =>
              if mem_of n s then
                match srun e (cb log n) with
                | None => None
                | Some (e', _) =>
                    if ans log n then snotify cb ans f e' l (next_of n s) (log ++ [n])
                    else Some (e', log ++ [n], false)
                end
              else None
          end
      end
  end.
