(** Model of Extras/JThread/JThreadExtras/jthread.hpp: any number of threads that start,
    move, assign, swap, join, detach and destroy jthread objects.

    Thread 0 is the one that begins; the thread k and the stop state k are made by one
    constructor.  The stop state is the flag that C96 proves; std::thread is modelled after
    the standard: the destructor of and an assignment to a joinable one call
    std::terminate, join() of itself throws, and so do join() and detach() of one that is
    not joinable. *)
From Verif Require Import Common.

(** _stopSource, _thread, :77-78 *)
Record handle := Handle { h_src : option nat; h_thr : option nat }.
Definition none : handle := Handle None None.
Definition joinable (x : handle) : bool := match h_thr x with Some _ => true | None => false end.

(** What follows request_stop() and join(): ~jthread, operator = with its argument; Join: only join() was called *)
Inductive kont := KDtor | KAssign (h2 : nat) | KJoin.
Inductive pc := PUser | PReq (h : nat) (k : kont) | PJoin (h : nat) (k : kont).
Inductive event :=
| EStart (h k : nat)                           (* the thread k has been started by the constructor of h *)
| EReq (t h : nat) (k : option nat) (b : bool) (* request_stop() of h, whose stop state is that of the thread k, returns b *)
| EQuery (k : nat) (b : bool)                  (* stop_requested() of the token of the thread k *)
| EEnd (k : nat)                               (* the function of the thread has returned *)
| EDetach (k : nat)
| EJoined (t h k : nat)                        (* join() of h in the thread t: the thread k has ended *)
| EThrow (t : nat)                             (* join() or detach() throws std::system_error *)
| EGone (t h : nat)                            (* ~jthread has returned *)
| EAssigned (t h h2 : nat).                    (* operator = has returned *)

(** [ended], [asked]: the thread has ended; its stop state has the flag *)
Record state := State { hs : nat -> option handle; nh : nat; nth : nat; ended : nat -> bool; asked : nat -> bool; pcs : nat -> pc; log : list event }.
Definition init : state := State (fun _ => None) 0 1 (fun _ => false) (fun _ => false) (fun _ => PUser) [].
Inductive outcome := Next (s : state) | Terminates.

Definition set_h (s : state) (h : nat) (x : option handle) : state := State (upd (hs s) h x) (nh s) (nth s) (ended s) (asked s) (pcs s) (log s).
Definition go (s : state) (t : nat) (p : pc) : state := State (hs s) (nh s) (nth s) (ended s) (asked s) (upd (pcs s) t p) (log s).
Definition ask (s : state) (k : nat) : state := State (hs s) (nh s) (nth s) (ended s) (upd (asked s) k true) (pcs s) (log s).
Definition finish (s : state) (k : nat) : state := State (hs s) (nh s) (nth s) (upd (ended s) k true) (asked s) (pcs s) (log s).
Definition note (s : state) (e : event) : state := State (hs s) (nh s) (nth s) (ended s) (asked s) (pcs s) (log s ++ [e]).
(** A new object *)
Definition make (s : state) (x : handle) : state := State (upd (hs s) (nh s) (Some x)) (S (nh s)) (nth s) (ended s) (asked s) (pcs s) (log s).

(** The members of the implicit destructor: ~thread terminates if it is joinable. *)
Definition destroy (s : state) (t h : nat) (x : handle) : outcome :=
  if joinable x then Terminates else Next (note (set_h s h None) (EGone t h)).
(** :122-124: _thread = move(t._thread); _stopSource = move(t._stopSource) *)
Definition move_into (s : state) (t h h2 : nat) (x y : handle) : outcome :=
  if joinable x then Terminates
  else if Nat.eqb h h2 then Next (note s (EAssigned t h h2))
  else Next (note (set_h (set_h s h2 (Some none)) h (Some y)) (EAssigned t h h2)).
(** The thread [t] uses the object [h]. *)
Definition uses (p : pc) (h : nat) : bool :=
  match p with
  | PUser => false
  | PReq x k | PJoin x k => Nat.eqb x h || match k with KAssign y => Nat.eqb y h | _ => false end
  end.
(** ... in a way that allows other threads to call request_stop: it is in join() *)
Definition uses_hard (p : pc) (h : nat) : bool := match p with PJoin _ KJoin => false | _ => uses p h end.

Inductive action :=
| AStep | ANew | AStart | AMove (h : nat) | AAssign (h h2 : nat) | ASwap (h h2 : nat) | AJoin (h : nat) | ADetach (h : nat) | ARequest (h : nat) | ADestroy (h : nat) | AQuery | AReturn.

(** request_stop, :67-69 *)
Definition request (s : state) (t h : nat) (x : handle) : state :=
  match h_src x with
  | None => note s (EReq t h None false)
  | Some k => note (ask s k) (EReq t h (Some k) (negb (asked s k)))
  end.

Definition lib_step (t : nat) (p : pc) (s : state) : option outcome :=
  match p with
  | PUser => None
  (* :118, 131 *)
  | PReq h k => match hs s h with Some x => Some (Next (go (request s t h x) t (PJoin h k))) | None => None end
  (* :119, 132, 142 *)
  | PJoin h k =>
      match hs s h with
      | Some x =>
          match h_thr x with
          | Some j =>
              if Nat.eqb j t then match k with KJoin => Some (Next (note (go s t PUser) (EThrow t))) | _ => Some Terminates end
              else if ended s j then
                let x1 := Handle (h_src x) None in
                let s1 := note (go (set_h s h (Some x1)) t PUser) (EJoined t h j) in
                match k with
                | KJoin => Some (Next s1)
                | KDtor => Some (destroy s1 t h x1)
                | KAssign h2 => match hs s1 h2 with Some y => Some (move_into s1 t h h2 x1 y) | None => None end
                end
              else None
          (* the object is not joinable any more: join() throws *)
          | None => match k with KJoin => Some (Next (note (go s t PUser) (EThrow t))) | _ => Some Terminates end
          end
      | None => None
      end
  end.

(** User code: an object is used while it exists and by one thread at a time; but
    request_stop may be called while another thread is in join(). *)
Definition user_step (t : nat) (a : action) (s : state) : option outcome :=
  let free (h : nat) : bool := forallb (fun u => negb (uses (pcs s u) h)) (seq 0 (nth s)) in
  match a with
  | AStep => None
  | ANew => Some (Next (make s none))
  | AStart => let k := nth s in
      Some (Next (note (make (State (hs s) (nh s) (S k) (ended s) (asked s) (pcs s) (log s)) (Handle (Some k) (Some k))) (EStart (nh s) k)))
  | AMove h => match hs s h with Some x => if free h then Some (Next (make (set_h s h (Some none)) x)) else None | None => None end
  | AAssign h h2 =>
      match hs s h, hs s h2 with
      | Some x, Some y => if free h && free h2 then Some (if joinable x then Next (go s t (PReq h (KAssign h2))) else move_into s t h h2 x y) else None
      | _, _ => None
      end
  | ASwap h h2 =>
      match hs s h, hs s h2 with
      | Some x, Some y => if free h && free h2 then Some (Next (set_h (set_h s h (Some (Handle (h_src y) (h_thr y)))) h2 (Some (Handle (h_src x) (h_thr x))))) else None
      | _, _ => None
      end
  | AJoin h => match hs s h with Some x => if free h then Some (Next (go s t (PJoin h KJoin))) else None | None => None end
  | ADetach h =>
      match hs s h with
      | Some x => if free h then
          match h_thr x with
          | Some k => Some (Next (note (set_h s h (Some (Handle (h_src x) None))) (EDetach k)))
          | None => Some (Next (note s (EThrow t)))
          end else None
      | None => None
      end
  | ARequest h =>
      match hs s h with
      | Some x => if forallb (fun u => negb (uses_hard (pcs s u) h)) (seq 0 (nth s)) then Some (Next (request s t h x)) else None
      | None => None
      end
  | ADestroy h =>
      match hs s h with
      | Some x => if free h then Some (if joinable x then Next (go s t (PReq h KDtor)) else destroy s t h x) else None
      | None => None
      end
  | AQuery => if Nat.eqb t 0 then None else Some (Next (note s (EQuery t (asked s t))))
  | AReturn => if Nat.eqb t 0 then None else Some (Next (note (finish s t) (EEnd t)))
  end.
(** None: not possible now *)
Definition step (t : nat) (a : action) (s : state) : option outcome :=
  if (t <? nth s) && negb (ended s t) then
    match pcs s t with
    | PUser => user_step t a s
    | p => match a with AStep => lib_step t p s | _ => None end
    end
  else None.
Fixpoint run (tr : list (nat * action)) (s : state) : option outcome :=
  match tr with
  | [] => Some (Next s)
  | (t, a) :: tr => match step t a s with Some (Next s1) => run tr s1 | x => x end
  end.
