(** What a stream of bytes is (C64). *)
From Verif Require Import Common.
Local Open Scope Z_scope.

(** ** Reading in sequence *)
Inductive request := RRead (n : Z) | REnd.
Inductive reply := PBytes (b : list Z) | PBool (b : bool).
(** The replies if these bytes are left: the next n bytes, fewer only at the end. *)
Fixpoint replies (rest : list Z) (rs : list request) : list reply :=
  match rs with
  | [] => []
  | RRead n :: rs' => PBytes (firstn (Z.to_nat n) rest) :: replies (skipn (Z.to_nat n) rest) rs'
  | REnd :: rs' => PBool (match rest with [] => true | _ => false end) :: replies rest rs'
  end.
Definition received (l : list reply) : list Z := flat_map (fun r => match r with PBytes b => b | PBool _ => [] end) l.
Definition requested (rs : list request) : Z := fold_right (fun r n => match r with RRead k => k + n | REnd => n end) 0 rs.
Definition valid_request (r : request) : Prop := match r with RRead n => 0 <= n < 2 ^ 64 | REnd => True end.

(** ** A file: its length, the byte at each offset, and the position *)
Record sfile := { slen : Z; sat : Z -> Z; spos : Z }.
(** A byte is overwritten, or there is a gap of zeros, or it stays. *)
Definition swrite (s : sfile) (b : list Z) : sfile :=
  let e := spos s + Z.of_nat (length b) in
  {| slen := Z.max (slen s) e;
     sat := fun i => if (spos s <=? i) && (i <? e) then nth (Z.to_nat (i - spos s)) b 0 else if i <? slen s then sat s i else 0;
     spos := e |}.
Definition struncate (s : sfile) : sfile :=
  {| slen := spos s; sat := fun i => if i <? slen s then sat s i else 0; spos := spos s |}.
Definition sseek (s : sfile) (p : Z) : sfile := {| slen := slen s; sat := sat s; spos := p |}.
(** The bytes from the position on, at most n of them *)
Definition sread (s : sfile) (n : Z) : list Z :=
  map (fun k => sat s (spos s + Z.of_nat k)) (seq 0 (Z.to_nat (Z.min n (slen s - spos s)))).
