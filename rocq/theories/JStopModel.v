(** Model of Extras/JThread/JThreadExtras/stop_token.hpp (which Awl/CppStd/Thread.h takes
    instead of <stop_token> if AWL_JTHREAD_EXTRAS is defined): one __stop_state that any
    number of threads use through stop_source, stop_token and stop_callback objects.

    A thread is a stack of frames: user code and functions of the library.  Each atomic
    operation on __state_ is one step; so are all the accesses between a lock and the
    unlock together, because other threads access these data under the lock only.  Memory
    is sequentially consistent (the memory orders of the code are not modelled). *)
From Coq Require Import ZifyBool ZifyNat.
From Verif Require Import Common.
Local Open Scope Z_scope.

(** :291-301: the word __state_: bit 0 stop requested, bit 1 locked, bits 2-32 the number
    of token references, bits 33-63 the number of sources *)
Definition stop_flag : Z := 1.
Definition locked_flag : Z := 2.
Definition token_inc : Z := 4.
Definition source_inc : Z := 2 ^ 33.
Definition wrap (z : Z) : Z := z mod 2 ^ 64.
(** :224-236 *)
Definition is_locked (w : Z) : bool := negb (Z.land w locked_flag =? 0).
Definition is_stop_requested (w : Z) : bool := negb (Z.land w stop_flag =? 0).
Definition is_requestable (w : Z) : bool := is_stop_requested w || (source_inc <=? w).

(** What a pointer __prev_ points to: __head_ or __next_ of a callback *)
Inductive ploc := PHead | PNext (c : nat).
(** The lifetime of a stop_callback: constructor, between, destructor, after it *)
Inductive life := LBuild | LAlive | LDying | LGone.
(** stop_callback and __stop_callback_base, :29-45, 487-561: [c_rem]: __isRemoved_ is not null, [c_fin]:
    __callbackFinishedExecuting_, [c_state]: stop_callback::__state_ is not null.  [c_life]
    is not in the code; neither is [c_ref]: one of the token references is counted for the
    callback. *)
Record cb := Cb { c_next : option nat; c_prev : option ploc; c_rem : bool; c_fin : bool; c_state : bool; c_life : life; c_ref : bool }.
Definition new_cb : cb := Cb None None false false false LBuild false.

Inductive frame :=
| FUser                                        (* code that uses the library *)
(* __request_stop, :73-131, with __try_lock_and_signal_until_signalled, :238-255, and __lock, :257-269 *)
| FReq | FReqCas (old : Z) | FReqSet | FReqLoop | FReqRun (c : nat) (more : bool) | FReqBody (c : nat) (more removed : bool) | FReqLock | FReqLockCas (old : Z)
(* the constructor of stop_callback, :497-525, with __try_add_callback, :141-179; [mv]: from stop_token&& *)
| FAdd (c : nat) (mv : bool) | FAddChk (c : nat) (mv : bool) (old : Z) | FAddPush (c : nat) (mv : bool) | FAddInl (c : nat) (mv : bool) | FAddRet (c : nat) (ok : bool)
(* the destructor of stop_callback, :527-536, with __remove_callback, :181-221, and __lock, :257-269 *)
| FRm (c : nat) | FRmCas (c : nat) (old : Z) | FRmBody (c : nat) | FRmCheck (c : nat) | FRmSpin (c : nat) | FRmDrop (c : nat).

(** What is seen from outside *)
Inductive event :=
| ESignal (t : nat)                            (* request_stop() of this thread has set the flag *)
| EReq (t : nat) (b : bool)                    (* request_stop() has returned b *)
| EQuery (t : nat) (b : bool)                  (* stop_requested() *)
| EPossible (t : nat) (b : bool)               (* stop_possible() of a token *)
| ENew (c t : nat)                             (* a constructor of stop_callback begins *)
| EAdd (c t : nat)                             (* ... has returned *)
| EBegin (c t : nat) | EEnd (c t : nat)        (* the callback is called and returns *)
| EDying (c t : nat) | EGone (c t : nat).      (* a destructor of stop_callback begins and has returned *)

(** [tokens], [sources]: the existing stop_token and stop_source objects that refer to the
    state; [freed]: it has been deleted. *)
Record state := State { word : Z; head : option nat; signalling : option nat; cbs : nat -> cb; ncb : nat; stacks : nat -> list frame;
                        tokens : nat; sources : nat; freed : bool; log : list event }.
(** A new state, with one source, :301-303, 410; every thread executes user code. *)
Definition init : state := State source_inc None None (fun _ => new_cb) 0 (fun _ => [FUser]) 0 1 false [].

Section Threads.
(** The number of threads *)
Context (n : nat).

(** ** Objects in use *)
Definition countf (p : frame -> bool) (l : list frame) : nat := length (filter p l).
Fixpoint sum (f : nat -> nat) (k : nat) : nat := match k with O => O | S j => (f j + sum f j)%nat end.
Definition total (p : frame -> bool) (s : state) : nat := sum (fun t => countf p (stacks s t)) n.
Definition in_req (f : frame) : bool :=
  match f with FReq | FReqCas _ | FReqSet | FReqLoop | FReqRun _ _ | FReqBody _ _ _ | FReqLock | FReqLockCas _ => true | _ => false end.
Definition in_add (mv : bool) (f : frame) : bool :=
  match f with FAdd _ m | FAddChk _ m _ | FAddPush _ m | FAddInl _ m => Bool.eqb m mv | _ => false end.
(** Token objects that are used by somebody else: each of those that callbacks are being
    constructed from as rvalues, and one if there are others (all may use the same). *)
Definition moving (s : state) : nat := total (in_add true) s.
Definition busy (s : state) : nat := (moving s + if Nat.eqb (total (in_add false) s) 0 then 0 else 1)%nat.

(** ** Steps of the library *)
Definition set_word (s : state) (w : Z) : state := State w (head s) (signalling s) (cbs s) (ncb s) (stacks s) (tokens s) (sources s) (freed s) (log s).
Definition set_stack (s : state) (t : nat) (l : list frame) : state :=
  State (word s) (head s) (signalling s) (cbs s) (ncb s) (upd (stacks s) t l) (tokens s) (sources s) (freed s) (log s).
Definition set_cb (s : state) (c : nat) (x : cb) : state :=
  State (word s) (head s) (signalling s) (upd (cbs s) c x) (ncb s) (stacks s) (tokens s) (sources s) (freed s) (log s).
Definition set_head (s : state) (h : option nat) : state :=
  State (word s) h (signalling s) (cbs s) (ncb s) (stacks s) (tokens s) (sources s) (freed s) (log s).
Definition set_sig (s : state) (t : nat) : state :=
  State (word s) (head s) (Some t) (cbs s) (ncb s) (stacks s) (tokens s) (sources s) (freed s) (log s).
Definition set_objs (s : state) (tk sr : nat) : state :=
  State (word s) (head s) (signalling s) (cbs s) (ncb s) (stacks s) tk sr (freed s) (log s).
Definition free (s : state) : state :=
  State (word s) (head s) (signalling s) (cbs s) (ncb s) (stacks s) (tokens s) (sources s) true (log s).
Definition note (s : state) (e : event) : state :=
  State (word s) (head s) (signalling s) (cbs s) (ncb s) (stacks s) (tokens s) (sources s) (freed s) (log s ++ [e]).

(** An access to the state after [delete this], or to a destroyed callback, is undefined. *)
Definition touch (s : state) {A} (k : res A) : res A := guard (negb (freed s)) k.
Definition live (s : state) (c : nat) : bool := match c_life (cbs s c) with LGone => false | _ => true end.
Definition with_prev (x : cb) (p : option ploc) : cb := Cb (c_next x) p (c_rem x) (c_fin x) (c_state x) (c_life x) (c_ref x).
Definition with_next (x : cb) (p : option nat) : cb := Cb p (c_prev x) (c_rem x) (c_fin x) (c_state x) (c_life x) (c_ref x).
Definition with_rem (x : cb) (b : bool) : cb := Cb (c_next x) (c_prev x) b (c_fin x) (c_state x) (c_life x) (c_ref x).
Definition with_fin (x : cb) (b : bool) : cb := Cb (c_next x) (c_prev x) (c_rem x) b (c_state x) (c_life x) (c_ref x).
Definition with_life (x : cb) (l : life) : cb := Cb (c_next x) (c_prev x) (c_rem x) (c_fin x) (c_state x) l (c_ref x).
Definition with_ref (x : cb) (b : bool) : cb := Cb (c_next x) (c_prev x) (c_rem x) (c_fin x) (c_state x) (c_life x) b.
Definition with_state (x : cb) (b : bool) : cb := Cb (c_next x) (c_prev x) (c_rem x) (c_fin x) b (c_life x) (c_ref x).

(** p->__prev_ = q, where p may be null *)
Definition set_prev_of (s : state) (p : option nat) (q : option ploc) : res state :=
  match p with None => Ok s | Some d => guard (live s d) (Ok (set_cb s d (with_prev (cbs s d) q))) end.
(** *p = v *)
Definition store_next (s : state) (p : ploc) (v : option nat) : res state :=
  match p with PHead => Ok (set_head s v) | PNext d => guard (live s d) (Ok (set_cb s d (with_next (cbs s d) v))) end.

(** __unlock, :271-273 *)
Definition unlock (s : state) : state := set_word s (wrap (word s - locked_flag)).
(** __unlock_and_increment_token_ref_count, :275-278 *)
Definition unlock_inc (s : state) : state := set_word s (wrap (word s - (locked_flag - token_inc))).
(** __unlock_and_decrement_token_ref_count, :280-289 *)
Definition unlock_dec (s : state) : state :=
  let old := word s in let s1 := set_word s (wrap (old - (locked_flag + token_inc))) in
  if old <? locked_flag + token_inc + token_inc then free s1 else s1.
(** __add_token_reference, __remove_token_reference, __add_source_reference,
    __remove_source_reference, :49-71 *)
Definition add_token (s : state) : state := set_word s (wrap (word s + token_inc)).
Definition remove_token (s : state) : state :=
  let old := word s in let s1 := set_word s (wrap (old - token_inc)) in if old <? token_inc + source_inc then free s1 else s1.
Definition add_source (s : state) : state := set_word s (wrap (word s + source_inc)).
Definition remove_source (s : state) : state :=
  let old := word s in let s1 := set_word s (wrap (old - source_inc)) in if old <? token_inc + source_inc then free s1 else s1.

(** *__cb->__isRemoved_ = true, :205-210: the flag is a variable of __request_stop, whose
    frame is in the stack [l] of the same thread *)
Definition set_removed (c : nat) (l : list frame) : list frame :=
  map (fun f => match f with FReqBody d m r => if Nat.eqb d c then FReqBody d m true else f | _ => f end) l.
(** The end of the destructor *)
Definition gone (s : state) (c t : nat) : state := note (set_cb s c (with_life (cbs s c) LGone)) (EGone c t).

(** One step of the function at the top of the stack of thread [t], [st] is the rest of
    the stack; [weak]: compare_exchange_weak fails although the values are equal. *)
Definition lib_step (weak : bool) (t : nat) (f : frame) (st : list frame) (s : state) : option (res state) :=
  let go (s1 : state) (l : list frame) : option (res state) := Some (Ok (set_stack s1 t l)) in
  let chk (k : res state) : option (res state) := Some (touch s k) in
  match f with
  | FUser => None
  (* __request_stop *)
  | FReq => chk (Ok (set_stack s t (FReqCas (word s) :: st)))
  | FReqCas old => chk (
      if is_stop_requested old then Ok (note (set_stack s t st) (EReq t false))
      else if is_locked old then Ok (set_stack s t (FReq :: st))
      else if (word s =? old) && negb weak then Ok (note (set_stack (set_word s (Z.lor (Z.lor old stop_flag) locked_flag)) t (FReqSet :: st)) (ESignal t))
      else Ok (set_stack s t (FReqCas (word s) :: st)))
  | FReqSet => chk (Ok (set_stack (set_sig s t) t (FReqLoop :: st)))
  | FReqLoop => chk (
      match head s with
      | None => Ok (note (set_stack (unlock s) t st) (EReq t true))
      | Some c =>
        guard (live s c)
        (let h := c_next (cbs s c) in
         let* s1 := set_prev_of (set_head s h) h (Some PHead) in
         let s2 := set_cb s1 c (with_prev (cbs s1 c) None) in
         Ok (set_stack (unlock s2) t (FReqRun c (match h with Some _ => true | None => false end) :: st)))
      end)
  | FReqRun c more => Some (guard (live s c) (Ok (note (set_stack (set_cb s c (with_rem (cbs s c) true)) t (FUser :: FReqBody c more false :: st)) (EBegin c t))))
  | FReqBody c more removed =>
      let k (s1 : state) : res state := if more then Ok (set_stack s1 t (FReqLock :: st)) else Ok (note (set_stack s1 t st) (EReq t true)) in
      Some (if removed then k s else guard (live s c) (k (set_cb s c (with_fin (with_rem (cbs s c) false) true))))
  | FReqLock => chk (Ok (set_stack s t (FReqLockCas (word s) :: st)))
  | FReqLockCas old => chk (
      if is_locked old then Ok (set_stack s t (FReqLock :: st))
      else if (word s =? old) && negb weak then Ok (set_stack (set_word s (Z.lor old locked_flag)) t (FReqLoop :: st))
      else Ok (set_stack s t (FReqLockCas (word s) :: st)))
  (* stop_callback() *)
  | FAdd c mv => chk (Ok (set_stack s t (FAddChk c mv (word s) :: st)))
  | FAddChk c mv old => chk (
      if is_stop_requested old then Ok (note (set_stack s t (FUser :: FAddInl c mv :: st)) (EBegin c t))
      else if negb (is_requestable old) then Ok (set_stack s t (FAddRet c false :: st))
      else if is_locked old then Ok (set_stack s t (FAdd c mv :: st))
      else if (word s =? old) && negb weak then Ok (set_stack (set_word s (Z.lor old locked_flag)) t (FAddPush c mv :: st))
      else Ok (set_stack s t (FAddChk c mv (word s) :: st)))
  | FAddPush c mv => chk (
      let h := head s in
      let* s1 := set_prev_of (set_cb s c (with_next (cbs s c) h)) h (Some (PNext c)) in
      let s2 := set_head (set_cb s1 c (with_prev (cbs s1 c) (Some PHead))) (Some c) in
      let s3 := set_cb s2 c (with_ref (cbs s2 c) true) in
      (* a moved token gives its reference to the callback; :523 makes it empty *)
      Ok (set_stack (if mv then set_objs (unlock s3) (tokens s - 1) (sources s) else unlock_inc s3) t (FAddRet c true :: st)))
  | FAddInl c mv => go s (FAddRet c false :: st)
  | FAddRet c ok =>
      (* :504-507, 521-524 *)
      Some (Ok (note (set_stack (set_cb s c (with_life (with_state (cbs s c) ok) LAlive)) t st) (EAdd c t)))
  (* ~stop_callback() *)
  | FRm c => chk (Ok (set_stack s t (FRmCas c (word s) :: st)))
  | FRmCas c old => chk (
      if is_locked old then Ok (set_stack s t (FRm c :: st))
      else if (word s =? old) && negb weak then Ok (set_stack (set_word s (Z.lor old locked_flag)) t (FRmBody c :: st))
      else Ok (set_stack s t (FRmCas c (word s) :: st)))
  | FRmBody c => chk (
      match c_prev (cbs s c) with
      | Some p =>
        let h := c_next (cbs s c) in
        let* s1 := store_next s p h in
        let* s2 := set_prev_of s1 h (Some p) in
        Ok (gone (set_stack (unlock_dec (set_cb s2 c (with_ref (cbs s2 c) false))) t st) c t)
      | None => Ok (set_stack (unlock s) t (FRmCheck c :: st))
      end)
  | FRmCheck c => chk (
      match signalling s with
      | Some u => if Nat.eqb u t then Ok (set_stack s t (FRmDrop c :: if c_rem (cbs s c) then set_removed c st else st)) else Ok (set_stack s t (FRmSpin c :: st))
      | None => Ok (set_stack s t (FRmSpin c :: st))
      end)
  | FRmSpin c => go s (if c_fin (cbs s c) then FRmDrop c :: st else FRmSpin c :: st)
  | FRmDrop c => chk (Ok (gone (set_stack (remove_token (set_cb s c (with_ref (cbs s c) false))) t st) c t))
  end.

(** ** Steps of user code *)
Inductive action :=
| AStep | AWeak                                (* a step of the library *)
| ANewToken | ADelToken                        (* get_token or a copy of a token; ~stop_token *)
| ANewSource | ADelSource                      (* a copy of a source; ~stop_source *)
| AQuery | APossible | ARequest
| AConstruct (mv : bool)                       (* stop_callback(token, f) *)
| ADestroy (c : nat)                           (* ~stop_callback *)
| AReturn.                                     (* the end of a callback *)

(** User code obeys the rules of the language: an object is used while it exists, and it
    is not destroyed while another operation uses it.  Moves and swaps of tokens and sources do not touch the state
    (:341-343, 359-367, 427-434, 463-465).  The counters have 31 bits: there are not more objects than that. *)
Definition user_step (t : nat) (a : action) (st : list frame) (s : state) : option (res state) :=
  let when (b : bool) (k : res state) : option (res state) := if b then Some (touch s k) else None in
  match a with
  | AStep | AWeak => None
  | ANewToken => when (((1 <=? sources s) || (moving s <? tokens s))%nat && (Z.of_nat (tokens s + ncb s) <? 2 ^ 31 - 1)) (Ok (set_objs (add_token s) (S (tokens s)) (sources s)))
  | ADelToken => when (busy s <? tokens s)%nat (Ok (set_objs (remove_token s) (tokens s - 1) (sources s)))
  | ANewSource => when ((1 <=? sources s)%nat && (Z.of_nat (sources s) <? 2 ^ 31 - 1)) (Ok (set_objs (add_source s) (tokens s) (S (sources s))))
  | ADelSource => when ((2 <=? sources s) || (1 <=? sources s) && Nat.eqb (total in_req s) 0)%nat (Ok (set_objs (remove_source s) (tokens s) (sources s - 1)))
  | AQuery => when ((1 <=? sources s) || (moving s <? tokens s))%nat (Ok (note s (EQuery t (is_stop_requested (word s)))))
  | APossible => when (moving s <? tokens s)%nat (Ok (note s (EPossible t (is_requestable (word s)))))
  | ARequest => when (1 <=? sources s)%nat (Ok (set_stack s t (FReq :: FUser :: st)))
  | AConstruct mv => when ((if mv then busy s <? tokens s else moving s <? tokens s)%nat && (Z.of_nat (tokens s + ncb s) <? 2 ^ 31 - 1))
      (let c := ncb s in
       Ok (State (word s) (head s) (signalling s) (upd (cbs s) c new_cb) (S c) (upd (stacks s) t (FAdd c mv :: FUser :: st)) (tokens s) (sources s) (freed s) (log s ++ [ENew c t])))
  | ADestroy c =>
      match c_life (cbs s c) with
      | LAlive => if (c <? ncb s)%nat then
          let s1 := note (set_cb s c (with_life (cbs s c) LDying)) (EDying c t) in
          (* :533-535 *)
          Some (Ok (if c_state (cbs s c) then set_stack s1 t (FRm c :: FUser :: st) else gone s1 c t))
        else None
      | _ => None
      end
  | AReturn => match st with
      | FReqBody c _ _ :: _ | FAddInl c _ :: _ => Some (Ok (note (set_stack s t st) (EEnd c t)))
      | _ => None
      end
  end.
(** None: not possible now; UB: undefined behaviour *)
Definition step (t : nat) (a : action) (s : state) : option (res state) :=
  if (t <? n)%nat then
    match stacks s t with
    | FUser :: st => user_step t a st s
    | f :: st => match a with AStep => lib_step false t f st s | AWeak => lib_step true t f st s | _ => None end
    | [] => None
    end
  else None.
(** An execution: which thread does what *)
Fixpoint run (tr : list (nat * action)) (s : state) : option (res state) :=
  match tr with
  | [] => Some (Ok s)
  | (t, a) :: tr => match step t a s with Some (Ok s1) => run tr s1 | x => x end
  end.
End Threads.
