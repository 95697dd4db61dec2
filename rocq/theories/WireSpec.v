(** The format of serialized data (C66), as a relation between values and bytes that another
    program could be written from. *)
From Verif Require Import Common CodecModel VtsModel HashStreamSpec.
Local Open Scope Z_scope.

(** Integers are little-endian, negative ones in two's complement. *)
Definition byte (b : Z) : Prop := 0 <= b < 256.
Fixpoint le_value (bs : bytes) : Z := match bs with [] => 0 | b :: r => b + 256 * le_value r end.
Definition le (w : nat) (z : Z) (bs : bytes) : Prop := length bs = w /\ Forall byte bs /\ le_value bs = z mod 256 ^ Z.of_nat w.
(** A sequence of parts *)
Definition parts {A} (p : A -> bytes -> Prop) (l : list A) (bs : bytes) : Prop := exists ps, bs = concat ps /\ Forall2 p l ps.
(** A number of elements in eight bytes, and the elements *)
Definition counted {A} (p : list A -> bytes -> Prop) (l : list A) (bs : bytes) : Prop := exists a b, bs = a ++ b /\ le 8 (Z.of_nat (length l)) a /\ p l b.
(** Bools in a vector: the element i is the bit i mod 8 of the byte i / 8, other bits are zero. *)
Definition bits (l : list bool) (bs : bytes) : Prop :=
  length bs = Nat.div (length l + 7) 8 /\ Forall byte bs /\ forall i, Z.testbit (nth (Nat.div i 8) bs 0) (Z.of_nat (Nat.modulo i 8)) = nth i l false.
(** Fields in order *)
Fixpoint fields (ps : list (val -> bytes -> Prop)) (l : list val) (bs : bytes) : Prop :=
  match ps, l with
  | [], [] => bs = []
  | p :: ps, v :: l => exists a b, bs = a ++ b /\ p v a /\ fields ps l b
  | _, _ => False
  end.

Section Image.
(** What precedes a reflectable structure with this number *)
Context (mark : nat -> bytes -> Prop).
Fixpoint image (t : ty) (v : val) (bs : bytes) : Prop :=
  let elements u (p : val -> bytes -> Prop) l bs := match u with TBool => exists bl, l = map VBool bl /\ bits bl bs | _ => parts p l bs end in
  match t, v with
  | TInt _ w, VInt z | TEnum _ w _, VInt z => le w z bs
  | TBool, VBool b => bs = [if b then 1 else 0]
  | TStr w, VStr l => counted (parts (le w)) l bs
  | TTime k, VInt z => le 8 (z * k) bs                      (* nanoseconds *)
  | TOpt _, VNone => bs = [0]
  | TOpt t, VSome v => exists b, bs = 1 :: b /\ image t v b
  | TArr _ t, VList l => elements t (image t) l bs
  | TVec t, VList l => counted (elements t (image t)) l bs
  | TDeque _ t, VList l | TSet _ t, VList l => counted (parts (image t)) l bs
  | TMap _ k t, VList l => counted (parts (fun e bs => exists x y a b, e = VPair x y /\ bs = a ++ b /\ image k x a /\ image t y b)) l bs
  | TVar ts, VVar i v => exists a b, bs = a ++ b /\ le 8 (Z.of_nat i) a /\ match nth_error (map image ts) i with Some p => p v b | None => False end
  | TTuple ts, VTup l => fields (map image ts) l bs
  | TStruct sid fs, VTup l => exists a b, bs = a ++ b /\ mark sid a /\ fields (map (fun f => image (snd f)) fs) l b
  | _, _ => False
  end.
End Image.
(** Without versions there is nothing before a structure; *)
Definition unmarked (sid : nat) (bs : bytes) : Prop := bs = [].
(** with versions there is its number in two bytes. *)
Definition marked (sid : nat) (bs : bytes) : Prop := le 2 (Z.of_nat sid) bs.

(** The description of the program at the begin: the names of the types, and for each
    structure the names of the fields with the position of their type among these; all ones
    for structures. *)
Definition text (l : fname) (bs : bytes) : Prop := counted (parts (le 1)) l bs.
Definition type_position (sch : schema) (t : ty) (z : Z) : Prop :=
  match t with
  | TStruct _ _ => z = 2 ^ 64 - 1
  | _ => exists k, z = Z.of_nat k /\ nth_error (map type_name (ftypes sch)) k = Some (type_name t)
  end.
Definition field_image (sch : schema) (f : fname * ty) (bs : bytes) : Prop := exists a b z, bs = a ++ b /\ text (fst f) a /\ type_position sch (snd f) z /\ le 8 z b.
Definition description (sch : schema) (bs : bytes) : Prop :=
  exists a b, bs = a ++ b /\ counted (parts (fun t => text (type_name t))) (ftypes sch) a /\ counted (parts (counted (parts (field_image sch)))) (structs sch) b.
Definition versioned_image (sch : schema) (t : ty) (v : val) (bs : bytes) : Prop := exists a b, bs = a ++ b /\ description sch a /\ image marked t v b.

(** A file of a PersistentObject: the name of the format, the version in eight bytes, and the
    value; all this in blocks that are followed by their hashes. *)
Definition persistent_image (format : fname) (version : Z) (sch : schema) (t : ty) (v : val) (bs : bytes) : Prop :=
  exists a b c, bs = a ++ b ++ c /\ text format a /\ le 8 version b /\ versioned_image sch t v c.
Definition in_blocks (H : bytes -> bytes) (payload : nat) (d f : bytes) : Prop := exists bs, f = stored_blocks H bs /\ blocks_of payload d bs.
