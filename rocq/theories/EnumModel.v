(** Model of Awl/EnumTraits.h (C67). *)
From Verif Require Import Common MemberListModel.
From Verif Require CompareModel.
Local Open Scope Z_scope.

(** The arguments of AWL_SEQUENTIAL_ENUM: names, with or without an initializer.  The value
    of an enumerator is its initializer or one more than the one before. *)
Record item := { iname : list nat; ival : option nat }.
Fixpoint values (from : nat) (l : list item) : list nat :=
  match l with
  | [] => []
  | x :: r => let v := match ival x with Some v => v | None => from end in v :: values (S v) r
  end.
(** EnumTraits.h:128-142: [Last] follows the last enumerator; the underlying type is uint8_t,
    in which all of them must fit, otherwise the enum is not compiled. *)
Definition count (l : list item) : nat := match rev (values 0 l) with v :: _ => S v | [] => O end.
Definition compiles (l : list item) : Prop := Forall (fun v => (v < 256)%nat) (values 0 l) /\ (count l < 256)%nat /\ NoDup (map iname l) /\ l <> [].
(** #__VA_ARGS__: "A, B = 5, C"; at most three digits *)
Definition digits (n : nat) : list nat :=
  let d k := (48 + k)%nat in
  if (n <? 10)%nat then [d n] else if (n <? 100)%nat then [d (n / 10); d (n mod 10)]%nat else [d (n / 100); d (n / 10 mod 10); d (n mod 10)]%nat.
Definition item_text (x : item) : list nat := iname x ++ match ival x with Some v => [32; 61; 32]%nat ++ digits v | None => [] end.
Fixpoint va_args (l : list item) : list nat :=
  match l with [] => [] | [x] => item_text x | x :: r => item_text x ++ [44; 32]%nat ++ va_args r end.
(** m_ml *)
Definition names (l : list item) : res (list (list Z)) := let* v := getArgNames (va_args l) in Ok (map (map Z.of_nat) v).

Section Enum.
Context (l : list item).
(** EnumTraits.h:35-46, 48-55, 57-63, 114-123; the value is one of the underlying type *)
Definition enum_to_index (v : nat) : res nat := if (count l <=? v)%nat then Throw RuntimeError else Ok v.
Definition validate_enum_index (v : nat) : res unit := if (count l <=? v)%nat then Throw RuntimeError else Ok tt.
Definition enum_from_index (i : nat) : res nat := let* _ := validate_enum_index i in Ok i.
Definition validate_enum (v : nat) : res unit := if (count l <=? v)%nat then Throw RuntimeError else Ok tt.
(** EnumTraits.h:65-69; vector::operator[] *)
Definition enum_to_string (v : nat) : res (list Z) :=
  let* i := enum_to_index v in
  let* ns := names l in
  match nth_error ns i with Some s => Ok s | None => UB end.
(** EnumTraits.h:71-104 *)
Fixpoint scan (equal : list Z -> res bool) (ns : list (list Z)) (index : nat) : res nat :=
  match ns with
  | [] => Throw RuntimeError
  | n :: r => let* b := equal n in if b then Ok index else scan equal r ((index + 1) mod 256)%nat
  end.
Definition string_equal (a b : list Z) : bool := if list_eq_dec Z.eq_dec a b then true else false.
Definition enum_from_string (s : list Z) : res nat := let* ns := names l in scan (fun n => Ok (string_equal n s)) ns 0.
Definition enum_from_string_i (lower : Z -> Z) (s : list Z) : res nat := let* ns := names l in scan (fun n => CompareModel.insensitive_equal lower n s) ns 0.
End Enum.
