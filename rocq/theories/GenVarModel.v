(** Model of Awl/Coro/Generator.h with generators in variables: the objects are created, moved, assigned, swapped and destroyed
    in any order, and iterators, which are copyable handles, refer to the coroutine and not to the variable.  The variables of
    Awl/Coro/AsyncGenerator.h:352-413 are the same; what differs there, begin() and ++, is AsyncGenModel.v and AsyncDropModel.v.

    A frame is a number; [frames f = None]: it has been destroyed or does not exist yet.  The memory for a frame is available. *)
From Verif Require Import Common GeneratorModel.

Section GenVar.
Variables (S V : Type).
Variable step : S -> res (gout V S).

Record gst := GSt {
  frames : nat -> option (gframe S V);
  made : nat;                           (* the frames that have been created: 0 ... made - 1 *)
  destroyed : list nat;                 (* the calls of destroy() so far *)
  vars : nat -> option (option nat);    (* None: there is no such variable; Some m: m_coroutine, Generator.h:231 *)
  its : nat -> option (option nat)      (* the iterators, Generator.h:161 *)
}.
Definition ginit : gst := GSt (fun _ => None) 0 [] (fun _ => None) (fun _ => None).

Inductive gop :=
| GNew (x : nat) (s : S)         (* generator<T> x = coroutine(s); *)
| GEmpty (x : nat)               (* generator<T> x; *)
| GMove (x y : nat)              (* generator<T> x(std::move(y)); *)
| GAssign (x y : nat)            (* x = std::move(y); x and y can be the same *)
| GAssignNew (x : nat) (s : S)   (* x = coroutine(s); *)
| GSwap (x y : nat)              (* x.swap(y); *)
| GFree (x : nat)                (* the end of the scope of x *)
| GBegin (i x : nat)             (* auto i = x.begin(); *)
| GCopy (i j : nat)              (* auto i = j; *)
| GNext (i : nat)                (* ++i; *)
| GAtEnd (i : nat)               (* i == x.end() *)
| GDeref (i : nat).              (* *i *)

(** What the program observes. *)
Inductive gobs := ONone | OBool (b : bool) | OVal (v : V) | OExn (e : exn).

Definition set_var (s : gst) (x : nat) (m : option (option nat)) : gst :=
  GSt (frames s) (made s) (destroyed s) (upd (vars s) x m) (its s).
Definition set_it (s : gst) (i : nat) (m : option nat) : gst :=
  GSt (frames s) (made s) (destroyed s) (vars s) (upd (its s) i (Some m)).
Definition set_frame (s : gst) (f : nat) (fr : gframe S V) : gst :=
  GSt (upd (frames s) f (Some fr)) (made s) (destroyed s) (vars s) (its s).

(** The coroutine function is called, Generator.h:243-248 *)
Definition new_frame (s : gst) (a : S) : gst :=
  GSt (upd (frames s) (made s) (Some (gcreate a))) (Datatypes.S (made s)) (destroyed s) (vars s) (its s).

(** ~generator, Generator.h:185-191, of an object with the handle [m] *)
Definition drop (s : gst) (m : option nat) : res gst :=
  match m with
  | None => Ok s
  | Some f =>
    match frames s f with
    | None => UB
    | Some _ => Ok (GSt (upd (frames s) f None) (made s) (f :: destroyed s) (vars s) (its s))
    end
  end.

(** operator=(generator other), Generator.h:193-197, 218-221: the parameter [other] gets the handle of *this and is destroyed *)
Definition assign (s : gst) (x : nat) (other : option nat) : res gst :=
  match vars s x with
  | None => UB
  | Some m => drop (set_var s x (Some other)) m
  end.

(** Generator.h:134-138 and 203-207 *)
Definition advance (s : gst) (f : nat) : res (gst * option exn) :=
  match frames s f with
  | None => UB
  | Some fr => let* (fr', x) := gadvance step fr in Ok (set_frame s f fr', x)
  end.

Definition gstep (o : gop) (s : gst) : res (gst * gobs) :=
  match o with
  | GNew x a =>
    match vars s x with Some _ => UB | None => Ok (set_var (new_frame s a) x (Some (Some (made s))), ONone) end
  | GEmpty x => match vars s x with Some _ => UB | None => Ok (set_var s x (Some None), ONone) end          (* 173-175 *)
  | GMove x y =>                                                                                            (* 177-181 *)
    match vars s x, vars s y with
    | None, Some m => Ok (set_var (set_var s x (Some m)) y (Some None), ONone)
    | _, _ => UB
    end
  | GAssign x y =>                                  (* [other] is constructed by the move constructor *)
    match vars s y with
    | None => UB
    | Some m => let* s' := assign (set_var s y (Some None)) x m in Ok (s', ONone)
    end
  | GAssignNew x a => let* s' := assign (new_frame s a) x (Some (made s)) in Ok (s', ONone)
  | GSwap x y =>                                                                                            (* 218-221 *)
    match vars s x, vars s y with
    | Some m, Some n => Ok (set_var (set_var s x (Some n)) y (Some m), ONone)
    | _, _ => UB
    end
  | GFree x =>
    match vars s x with
    | None => UB
    | Some m => let* s' := drop (set_var s x None) m in Ok (s', ONone)
    end
  | GBegin i x =>                                                                                           (* 199-211 *)
    match vars s x with
    | None => UB
    | Some None => Ok (set_it s i None, ONone)
    | Some (Some f) =>
      let* (s', e) := advance s f in
      match e with Some e => Ok (s', OExn e) | None => Ok (set_it s' i (Some f), ONone) end
    end
  | GCopy i j => match its s j with None => UB | Some m => Ok (set_it s i m, ONone) end
  | GNext i =>                                                                                              (* 132-141 *)
    match its s i with
    | Some (Some f) =>
      let* (s', e) := advance s f in
      match e with Some e => Ok (s', OExn e) | None => Ok (s', ONone) end
    | _ => UB
    end
  | GAtEnd i =>                                                                                             (* 112-115 *)
    match its s i with
    | None => UB
    | Some None => Ok (s, OBool true)
    | Some (Some f) => match frames s f with None => UB | Some fr => Ok (s, OBool (gdone fr)) end
    end
  | GDeref i =>                                                                                             (* 149-152 *)
    match its s i with
    | Some (Some f) => match frames s f with None => UB | Some fr => let* v := gderef (Some fr) in Ok (s, OVal v) end
    | _ => UB
    end
  end.

Fixpoint grun (os : list gop) (s : gst) : res (gst * list gobs) :=
  match os with
  | [] => Ok (s, [])
  | o :: os' => let* (s1, v) := gstep o s in let* (s2, vs) := grun os' s1 in Ok (s2, v :: vs)
  end.
End GenVar.
Arguments GNew {S}. Arguments GEmpty {S}. Arguments GMove {S}. Arguments GAssign {S}. Arguments GAssignNew {S}. Arguments GSwap {S}.
Arguments GFree {S}. Arguments GBegin {S}. Arguments GCopy {S}. Arguments GNext {S}. Arguments GAtEnd {S}. Arguments GDeref {S}.
Arguments ONone {V}. Arguments OBool {V}. Arguments OVal {V}. Arguments OExn {V}.
Arguments GSt {S V}. Arguments frames {S V}. Arguments made {S V}. Arguments destroyed {S V}. Arguments vars {S V}. Arguments its {S V}.
Arguments ginit {S V}. Arguments set_var {S V}. Arguments set_it {S V}. Arguments set_frame {S V}. Arguments new_frame {S V}.
Arguments drop {S V}. Arguments assign {S V}. Arguments advance {S V}. Arguments gstep {S V}. Arguments grun {S V}.
