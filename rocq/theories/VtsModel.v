(** Model of the version tolerant serialization: Awl/Io/Reader.h, Writer.h, Vts.h,
    PrototypeContainer.h, Awl/Prototype.h and the type names of Awl/Mp/TypeDescriptor.h.

    The structures and the other field types of a program (the variant V of Reader and
    Writer) are given as a [schema].  TInt stands for integral types here, TOpt for
    std::optional; a structure does not contain itself.  Neither Reader nor Writer has a
    string limit ([limit] of the environment is None). *)
From Coq Require Import String Ascii.
From Verif Require Import Common Int2ArrayModel CodecModel.
Local Open Scope Z_scope.
Local Open Scope list_scope.

(** ** Type names, TypeDescriptor.h *)
Definition str (s : string) : fname := map (fun c => Z.of_nat (nat_of_ascii c)) (list_ascii_of_string s).
(** FormatNumber, :47-68 *)
Fixpoint digits (fuel : nat) (n : nat) : fname :=
  match fuel with O => [] | S f => (if (n <? 10)%nat then [] else digits f (n / 10)) ++ [Z.of_nat (n mod 10) + 48] end.
Definition number (n : nat) : fname := digits (S n) n.
(** :92-118; signed and unsigned have one name *)
Definition int_name (w : nat) : fname := str "int" ++ number (8 * w) ++ str "_t".
Fixpoint type_name (t : ty) : fname :=
  match t with
  | TInt _ w => int_name w
  | TBool => int_name 1                                   (* bool is integral *)
  | TEnum _ w _ => int_name w                             (* :285-294 *)
  | TStr w => str "sequence<" ++ int_name w ++ str ">"    (* a range, :124-133 *)
  | TTime _ => int_name 8                                 (* :146-155 *)
  | TOpt t => str "optional<" ++ type_name t ++ str ">"   (* :159-168 *)
  | TArr n t => str "array<" ++ type_name t ++ str ", " ++ number n ++ str ">"   (* :183-192 *)
  | TVec t | TDeque _ t | TSet _ t => str "sequence<" ++ type_name t ++ str ">"
  | TMap _ k v => str "sequence<" ++ (str "pair<" ++ type_name k ++ str ", " ++ type_name v ++ str ">") ++ str ">"   (* :135-144 *)
  | TVar ts => str "variant<" ++ concat (map (fun t => type_name t ++ str ", ") ts) ++ str ">"   (* :207-216 *)
  | TStruct _ _ => str "struct"                           (* :196-205 *)
  | TTuple _ => []                                        (* has no name: not a field of a versioned structure *)
  end.

Definition fname_eqb (a b : fname) : bool := if list_eq_dec Z.eq_dec a b then true else false.
Fixpoint find_first {A} (p : A -> bool) (l : list A) : option nat :=
  match l with [] => None | x :: r => if p x then Some O else option_map S (find_first p r) end.

(** Type identity, for find_variant_type_v.  A structure is identified by its number. *)
Fixpoint ty_eqb (a b : ty) {struct a} : bool :=
  let fix list_eqb l m := match l, m with [], [] => true | x :: l, y :: m => ty_eqb x y && list_eqb l m | _, _ => false end in
  match a, b with
  | TInt s w, TInt s' w' => Bool.eqb s s' && Nat.eqb w w'
  | TBool, TBool => true
  | TEnum s w c, TEnum s' w' c' => Bool.eqb s s' && Nat.eqb w w' && match c, c' with Some x, Some y => x =? y | None, None => true | _, _ => false end
  | TStr w, TStr w' => Nat.eqb w w'
  | TTime k, TTime k' => k =? k'
  | TOpt t, TOpt t' | TVec t, TVec t' => ty_eqb t t'
  | TArr n t, TArr n' t' => Nat.eqb n n' && ty_eqb t t'
  | TDeque c t, TDeque c' t' => match c, c' with Some x, Some y => Nat.eqb x y | None, None => true | _, _ => false end && ty_eqb t t'
  | TSet c t, TSet c' t' => Nat.eqb c c' && ty_eqb t t'
  | TMap c k v, TMap c' k' v' => Nat.eqb c c' && ty_eqb k k' && ty_eqb v v'
  | TVar l, TVar m | TTuple l, TTuple m => list_eqb l m
  | TStruct s _, TStruct s' _ => Nat.eqb s s'
  | _, _ => false
  end.

(** PrototypeContainer.h:28-33: StructV and FieldV *)
Record schema := { structs : list (list (fname * ty)); ftypes : list ty }.
(** A field of a prototype: its name and the index of its type in FieldV, None (NoType)
    for structures (Prototype.h:48-61) *)
Notation pfield := (fname * option nat)%type.
Notation proto := (list pfield).
Definition field_type (sch : schema) (t : ty) : option nat :=
  match t with TStruct _ _ => None | _ => find_first (ty_eqb t) (ftypes sch) end.
(** AttachedPrototype, Prototype.h:79-110 *)
Definition new_proto (sch : schema) (fs : list (fname * ty)) : proto := map (fun f => (fst f, field_type sch (snd f))) fs.

(** ** Metadata (Metadata.h, Prototype.h:112-172): type names and prototypes *)
Definition meta_ty : ty := TTuple [TVec (TStr 1); TVec (TTuple [TVec (TTuple [TStr 1; TInt false 8])])].
Definition no_type : Z := 2 ^ 64 - 1.

Section Vts.
(** The stream that a Reader reads: bytes, or a HashInputStream over a file *)
Context {stm : Type} (raw0 : nat -> stm -> res (bytes * stm)) (size0 : stm -> nat).
Context (E : env).

(** ** Writer *)
(** WriteNewPrototypes, Writer.h:29-53 *)
Definition type_code (o : option nat) : Z := match o with Some k => Z.of_nat k | None => no_type end.
Definition write_proto (p : proto) : bytes :=
  put_size (length p) ++ concat (map (fun f : pfield => put_size (length (fst f)) ++ concat (map (put_int 1) (fst f)) ++ put_int 8 (type_code (snd f))) p).
Definition write_protos (sch : schema) : res bytes :=
  let* tm := pwrite E (TVec (TStr 1)) (VList (map (fun t => VStr (type_name t)) (ftypes sch))) in
  Ok (tm ++ put_size (length (structs sch)) ++ concat (map (fun fs => write_proto (new_proto sch fs)) (structs sch))).
(** WriteV, Writer.h:55-76; the index is cast to uint16_t *)
Definition struct_index (sid : nat) : bytes := put_int 2 (Z.of_nat sid).
(** Vts.h: WriteV *)
Definition vwrite (sch : schema) (t : ty) (v : val) : res bytes :=
  let* h := write_protos sch in let* b := write E struct_index t v in Ok (h ++ b).

(** ** Reader *)
Section Reader.
Context (sch : schema) (rename : nat -> fname -> fname) (type_map : fname -> fname) (allow_delete : bool).
(** The value of Metadata *)
Definition meta_names (m : val) : list fname :=
  match m with VTup [VList l; _] => map (fun v => match v with VStr s => s | _ => [] end) l | _ => [] end.
Definition meta_field (v : val) : fname * Z := match v with VTup [VStr s; VInt z] => (s, z) | _ => ([], 0) end.
Definition meta_protos (m : val) : list (list (fname * Z)) :=
  match m with VTup [_; VList l] => map (fun v => match v with VTup [VList fs] => map meta_field fs | _ => [] end) l | _ => [] end.

(** AttachMetadata, Reader.h:172-219; BuildN2iMap keeps the first of the types with one name *)
Definition attach_field (names : list fname) (f : fname * Z) : res pfield :=
  let (n, c) := f in
  if c =? no_type then Ok (n, None)
  else if Z.of_nat (length names) <=? c then Throw Corruption
  else match find_first (fun t => fname_eqb (type_name t) (nth (Z.to_nat c) names [])) (ftypes sch) with
       | None => Throw TypeMismatch
       | Some k => Ok (n, Some k)
       end.
Fixpoint mapM {A B} (f : A -> res B) (l : list A) : res (list B) :=
  match l with [] => Ok [] | x :: r => let* y := f x in let* ys := mapM f r in Ok (y :: ys) end.
Definition attach (names : list fname) (ps : list (list (fname * Z))) : res (list proto) := mapM (mapM (attach_field names)) ps.
(** ReadOldPrototypes, Reader.h:150-170 *)
Definition read_protos (s : stm) : res (list proto * stm) :=
  let* (m, s1) := read E raw0 plain_struct meta_ty (default E meta_ty) s in
  let* ps := attach (map type_map (meta_names m)) (meta_protos m) in Ok (ps, s1).

Context (olds : list proto).
(** protoMaps: for an index of an old structure, the new structure and the field map *)
Notation cache := (nat -> option (nat * list (option nat))).
Notation stream := (stm * cache)%type.
Definition vraw (n : nat) (s : stream) : res (bytes * stream) := let* (b, r) := raw0 n (fst s) in Ok (b, (r, snd s)).

(** :446-478; a type index refers to [ftypes] *)
Definition name_at (k : nat) : res fname := match nth_error (ftypes sch) k with Some t => Ok (type_name t) | None => UB end.
Definition types_equal (a b : nat) : res bool := if Nat.eqb a b then Ok true else let* x := name_at a in let* y := name_at b in Ok (fname_eqb x y).
Definition check_compatible (a b : option nat) : res unit :=
  match a, b with
  | None, None => Ok tt
  | Some x, Some y => let* e := types_equal x y in if e then Ok tt else Throw IoError
  | _, _ => Throw IoError
  end.
(** MapPrototypes, :399-444 *)
Definition map_field (sid : nat) (right : proto) (f : pfield) : res (option nat) :=
  match find_first (fun g : pfield => fname_eqb (fst g) (rename sid (fst f))) right with
  | None => Ok None
  | Some j => let* _ := check_compatible (snd f) (snd (nth j right ([], None))) in Ok (Some j)
  end.
Definition trivial_map (m : list (option nat)) (left right : proto) : bool :=
  Nat.eqb (length left) (length right) && if list_eq_dec (fun a b : option nat => ltac:(decide equality; apply Nat.eq_dec)) m (map Some (seq 0 (length m))) then true else false.
Definition map_protos (sid : nat) (left right : proto) : res (list (option nat)) :=
  let* m := mapM (map_field sid right) left in Ok (if trivial_map m left right then [] else m).
(** FindProtoMap, :355-390 *)
Definition find_map (sid idx : nat) (c : cache) : res (list (option nat) * cache) :=
  match c idx with
  | Some (k, m) => if Nat.eqb k sid then Ok (m, c) else Throw IoError
  | None => let* m := map_protos sid (nth idx olds []) (new_proto sch (nth sid (structs sch) [])) in Ok (m, upd c idx (Some (sid, m)))
  end.
(** ReadStructIndex, :338-343: only asserted *)
Definition read_index (s : stream) : res (nat * stream) :=
  let* (z, r) := get_int vraw false 2 s in
  if Z.of_nat (length olds) <=? z then UB else Ok (Z.to_nat z, r).

(** ReadV of a reflectable structure, :226-290, given how a field is skipped *)
Section Hook.
Context (skip : option nat -> stream -> res stream).
Fixpoint read_mapped (sid : nat) (rds : list (reader stream)) (fs : list (pfield * option nat)) (cur : list val) (s : stream) : res (list val * stream) :=
  match fs with
  | [] => Ok (cur, s)
  | ((_, ot), None) :: r => if allow_delete then let* s1 := skip ot s in read_mapped sid rds r cur s1 else Throw FieldNotFound
  | ((_, ot), Some j) :: r =>
    let nt := snd (nth j (new_proto sch (nth sid (structs sch) [])) ([], None)) in
    let* e := match ot, nt with Some a, Some b => types_equal a b | None, None => Ok true | _, _ => UB end in
    if negb e then Throw TypeMismatch
    else match nth_error rds j with
         | Some rd => let* (v, s1) := rd (nth j cur VNone) s in read_mapped sid rds r (set_nth cur j v) s1
         | None => UB
         end
  end.
Definition hook (sid : nat) (rds : list (reader stream)) (cur : list val) (s : stream) : res (list val * stream) :=
  let* (idx, s1) := read_index s in
  let* (m, c) := find_map sid idx (snd s1) in
  let s2 := (fst s1, c) in
  match m with
  | [] => get_each rds cur s2
  | _ => read_mapped sid rds (combine (nth idx olds []) m) cur s2
  end.
End Hook.
Fixpoint skip_all (skip : option nat -> stream -> res stream) (p : proto) (s : stream) : res stream :=
  match p with [] => Ok s | f :: r => let* s1 := skip (snd f) s in skip_all skip r s1 end.
(** SkipField and SkipStruct, :292-318.  Every level of nesting reads a structure index, so
    the length of the stream bounds the depth. *)
Fixpoint skip (fuel : nat) (o : option nat) (s : stream) : res stream :=
  match fuel with
  | O => UB
  | S f =>
    match o with
    | Some k => match nth_error (ftypes sch) k with
                | Some t => let* (_, s1) := read E vraw (hook (skip f)) t (default E t) s in Ok s1
                | None => UB
                end
    | None => let* (idx, s1) := read_index s in skip_all (skip f) (nth idx olds []) s1
    end
  end.
Definition vreadv (fuel : nat) (t : ty) (old : val) (s : stream) : res (val * stream) := read E vraw (hook (skip fuel)) t old s.
End Reader.

(** Vts.h: ReadV; [size0] bounds the number of bytes in the stream *)
Definition vread_from (sch : schema) (rename : nat -> fname -> fname) (type_map : fname -> fname) (allow_delete : bool) (t : ty) (old : val) (s : stm) : res (val * stm) :=
  let* (ps, s1) := read_protos sch type_map s in
  let* (v, r) := vreadv sch rename allow_delete ps (size0 s1) t old (s1, fun _ => None) in Ok (v, fst r).
End Vts.
(** Reading from bytes *)
Definition vread := vread_from get_raw (@List.length Z).
