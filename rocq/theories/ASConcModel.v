(** Model of AtomicStorage::Save with a mutex (Awl/Io/AtomicStorage.cpp:38-62, the branch
    p_mutex != nullptr) in a program with any number of threads that modify the object
    under the same mutex (OptionalMutex.h:5-33: IMutex and MutexWrapper forward to it).

    The object is [n] fields.  One field is read or written at a time; one operation on a
    file is one step, as in AStoreModel.v.  The dynamic_cast and MakeShanshot may throw. *)
From Verif Require Import Common AStoreModel.

(** Where a thread is. *)
Inductive pc :=
| Idle
| MLock (ws : list (nat * Z))                 (* a modifying thread that waits for the mutex *)
| MBody (ws : list (nat * Z))                 (* it has the mutex; the fields it will still write *)
| SLock                                       (* AtomicStorage.cpp:48 unique_lock lock(mutex) *)
| SSnap (got : list Z)                        (* :50-52 dynamic_cast, MakeShanshot: the fields read so far *)
| SFile (v : list Z) (todo : list sop).       (* :56-61 the files; what is still to be done *)

(** What happens, newest first: a call of Save, its return, an exception; the end of a
    modification, with the value of the object after it. *)
Inductive event := ECall (t : nat) | ERet (t : nat) (v : list Z) | EThrew (t : nat) | EPub (v : list Z).

Record state := State { mtx : option nat; obj : nat -> Z; files : storage; pcs : nat -> pc; savers : list nat; log : list event }.
Inductive act := AMutate (ws : list (nat * Z)) | ASave | AStep | AFail.

Section Conc.
Context (n : nat) (enc : list Z -> bytes).
(** [serial]: the program does not call Save while another call is in progress. *)
Context (serial : bool).

Definition value (s : state) : list Z := map (obj s) (seq 0 n).
Definition go (s : state) (t : nat) (p : pc) : state := State (mtx s) (obj s) (files s) (upd (pcs s) t p) (savers s) (log s).
Definition set_mtx (s : state) (m : option nat) : state := State m (obj s) (files s) (pcs s) (savers s) (log s).
Definition set_obj (s : state) (i : nat) (x : Z) : state := State (mtx s) (upd (obj s) i x) (files s) (pcs s) (savers s) (log s).
Definition set_files (s : state) (f : storage) : state := State (mtx s) (obj s) f (pcs s) (savers s) (log s).
Definition set_savers (s : state) (l : list nat) : state := State (mtx s) (obj s) (files s) (pcs s) l (log s).
Definition note (s : state) (e : event) : state := State (mtx s) (obj s) (files s) (pcs s) (savers s) (e :: log s).
Definition remove_saver (t : nat) (s : state) : state := set_savers s (filter (fun u => negb (u =? t)) (savers s)).

Definition acquire (s : state) (t : nat) (p : pc) : option state :=
  match mtx s with None => Some (go (set_mtx s (Some t)) t p) | Some _ => None end.

(** One step of thread [t]; None: the thread cannot do this now. *)
Definition step1 (s : state) (t : nat) (a : act) : option state :=
  match pcs s t, a with
  | Idle, AMutate ws => if forallb (fun w => fst w <? n) ws then Some (go s t (MLock ws)) else None
  | Idle, ASave => if serial && negb (length (savers s) =? 0) then None
                   else Some (note (go (set_savers s (t :: savers s)) t SLock) (ECall t))
  | MLock ws, AStep => acquire s t (MBody ws)
  | MBody [], AStep => Some (note (go (set_mtx s None) t Idle) (EPub (value s)))
  | MBody ((i, x) :: ws), AStep => Some (go (set_obj s i x) t (MBody ws))
  | SLock, AStep => acquire s t (SSnap [])
  | SSnap got, AStep =>
      if length got =? n then Some (go (set_mtx s None) t (SFile got (save_ops enc got)))      (* :54 lock.unlock() *)
      else Some (go s t (SSnap (got ++ [obj s (length got)])))
  | SSnap _, AFail => Some (note (remove_saver t (go (set_mtx s None) t Idle)) (EThrew t))     (* ~unique_lock *)
  | SFile v (o :: todo), AStep => Some (go (set_files s (step (files s) o)) t (SFile v todo))
  | SFile v [], AStep => Some (note (remove_saver t (go s t Idle)) (ERet t v))
  | _, _ => None
  end.
Fixpoint run1 (s : state) (l : list (nat * act)) : option state :=
  match l with
  | [] => Some s
  | (t, a) :: l' => match step1 s t a with Some s' => run1 s' l' | None => None end
  end.
(** An object and files that contain a value; nobody does anything. *)
Definition start (o : nat -> Z) (f : storage) : state := State None o f (fun _ => Idle) [] [].
End Conc.
