(** Model of one Writer and one Reader that are used for more than one value
    (Awl/Io/Writer.h, Awl/Io/Reader.h; Tests/VtsTest.cpp:82-200). *)
From Verif Require Import Common Int2ArrayModel CodecModel VtsModel PlainReaderModel.
Local Open Scope Z_scope.

Notation cache := (nat -> option (nat * list (option nat))).
Definition no_maps : cache := fun _ => None.

Section Again.
Context (E : env) (sch : schema) (rename : nat -> fname -> fname) (type_map : fname -> fname) (allow_delete : bool).

(** Reader::Initialize, Reader.h:137-147: the old prototypes are copies of the new ones *)
Definition init_protos : list proto := map (new_proto sch) (structs sch).

Section Reader.
Context (olds : list proto).
(** MakeProtoMap, Reader.h:392-396; an empty map if it has thrown *)
Definition made_map (sid idx : nat) : list (option nat) :=
  match map_protos sch rename sid (nth idx olds []) (new_proto sch (nth sid (structs sch) [])) with Ok m => m | _ => [] end.
(** protoMaps after a call of FindProtoMap, :355-390, that returns or throws: the element
    gets a value and its newStructIndex before MakeProtoMap is called (:381-386) *)
Definition find_map_after (sid idx : nat) (c : cache) : cache :=
  match c idx with Some _ => c | None => upd c idx (Some (sid, made_map sid idx)) end.

(** ReadV of a structure that is rejected by FindProtoMap, :226-236: the exception, and
    the stream and protoMaps that are left *)
Definition rejected (sid : nat) (st : bytes * cache) : option (exn * (bytes * cache)) :=
  match read_index get_raw olds st with
  | Ok (idx, s1) => match find_map sch rename olds sid idx (snd s1) with Throw e => Some (e, (fst s1, find_map_after sid idx (snd s1))) | _ => None end
  | _ => None
  end.

(** One ReadV after another *)
Fixpoint vreadvs (l : list (ty * val)) (st : bytes * cache) : res (list val * (bytes * cache)) :=
  match l with
  | [] => Ok ([], st)
  | (t, d) :: l => let* (v, s1) := vreadv get_raw E sch rename allow_delete olds (length (fst st)) t d st in let* (vs, s2) := vreadvs l s1 in Ok (v :: vs, s2)
  end.

(** The values that protoMaps can have.  After an exception there may be any number of new
    elements, each made by FindProtoMap: which of them there are is not followed here, so
    there can be more states here than a Reader has. *)
Definition added (c c' : cache) : Prop := forall i, c' i = c i \/ c i = None /\ exists sid, c' i = Some (sid, made_map sid i).
Inductive reader_state : cache -> Prop :=
  | rs_new : reader_state no_maps
  | rs_read c fuel t d s v s' c' : reader_state c -> vreadv get_raw E sch rename allow_delete olds fuel t d (s, c) = Ok (v, (s', c')) -> reader_state c'
  | rs_exception c c' : reader_state c -> added c c' -> reader_state c'.
End Reader.

(** ReadOldPrototypes and then the values, VtsTest.cpp:138-200 *)
Definition vread_all (l : list (ty * val)) (s : bytes) : res (list val * bytes) :=
  let* (ps, s1) := read_protos get_raw E sch type_map s in let* (vs, st) := vreadvs ps l (s1, no_maps) in Ok (vs, fst st).
End Again.
(** WriteNewPrototypes and then the values, VtsTest.cpp:82-106 *)
Definition vwrite_all (E : env) (sch : schema) (ts : list ty) (vs : list val) : res bytes :=
  let* h := write_protos E sch in let* b := writer_writes E ts vs in Ok (h ++ b).
