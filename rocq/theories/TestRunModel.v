(** Model of Awl/Testing/TestChain.h, TestMap.{h,cpp}, TestConsole.cpp and Main/main.cpp.

    A test is a name; what its k-th call in the program does is given by [beh].  The
    messages, the times, the timeout (see C55) and the counting of used options are left
    out. *)
From Verif Require Import Common CmdLineModel.
Local Open Scope Z_scope.

Inductive verdict := Passed | Failed (* TestException *) | Crashed (* another exception *).
(** What appears on the console. *)
Inductive event :=
| Name (n : text)            (* TestMap.cpp:78 *)
| Called (n : text)          (* not printed: p_test_link->Run, TestMap.cpp:151 *)
| Shown (s : text)           (* what a test writes with --output all *)
| PassedLine                 (* TestMap.cpp:158 *)
| LastOutput (s : text)      (* TestConsole.cpp:123 *)
| Verdict (ok : bool)        (* TestConsole.cpp:117, 125 *)
| Listed (n : text)          (* TestMap.cpp:67 *)
| Total (k : nat)            (* TestConsole.cpp:84 *)
| ErrorLine.                 (* TestConsole.cpp:141 *)
Record state := { log : list event; calls : nat; last : text }.
Definition say (e : event) (s : state) : state := {| log := log s ++ [e]; calls := calls s; last := last s |}.
Definition set_last (t : text) (s : state) : state := {| log := log s; calls := calls s; last := t |}.

Section Run.
(** [beh k n]: the text and the outcome of the k-th call, of the test n.  [matches r n]:
    std::regex_match, None if r is not a regular expression. *)
Context (beh : nat -> text -> text * verdict) (matches : text -> text -> option bool) (options : list opt).

(** TestChain.h:47-58: the chain, the test that was registered last is the first *)
Definition register (chain : list text) (n : text) : list text := n :: chain.

(** TestMap.cpp:23-32: std::map with CStringLess; RuntimeError is TestException *)
Fixpoint map_insert (n : text) (m : list text) : option (list text) :=
  match m with
  | [] => Some [n]
  | k :: r => if text_ltb n k then Some (n :: m) else if text_ltb k n then match map_insert n r with Some r' => Some (k :: r') | None => None end else None
  end.
Fixpoint test_map (chain m : list text) : res (list text) :=
  match chain with
  | [] => Ok m
  | n :: r => match map_insert n m with Some m' => test_map r m' | None => Throw RuntimeError end
  end.

(** The names of attributes and the values of output *)
Definition s_output : text := [111; 117; 116; 112; 117; 116].
Definition s_loop : text := [108; 111; 111; 112].
Definition s_list : text := [108; 105; 115; 116].
Definition s_filter : text := [102; 105; 108; 116; 101; 114].
Definition s_run : text := [114; 117; 110].
Definition s_all : text := [97; 108; 108].
Definition s_failed : text := [102; 97; 105; 108; 101; 100].
Definition s_null : text := [110; 117; 108; 108].
(** .*_Test *)
Definition s_tests : text := [46; 42; 95; 84; 101; 115; 116].
Definition text_attribute (n d : text) : text := match fst (attribute options AText n (One (Txt d))) with One (Txt s) => s | _ => [] end.
Definition number_attribute (k : scalar) (n : text) (d : Z) : Z := match fst (attribute options (AScalar k) n (One (Num d))) with One (Num z) => z | _ => 0 end.
Definition set_attribute (n : text) : list text :=
  match fst (attribute options (ASet EText) n (Many [])) with Many l => map (fun a => match a with Txt s => s | Num _ => [] end) l | _ => [] end.

(** TestMap.cpp:96-115 *)
Inductive mode := All | OnFailure | Null.
Definition output_mode : option mode :=
  let o := text_attribute s_output s_failed in
  if text_eqb o s_all then Some All else if text_eqb o s_failed then Some OnFailure else if text_eqb o s_null then Some Null else None.
(** TestMap.cpp:80-89 *)
Definition loop_count : nat := let l := number_attribute FULong s_loop 0 in if l =? 0 then 1%nat else Z.to_nat l.
(** TestMap.cpp:117-159, one turn of the loop *)
Definition one_run (md : mode) (n : text) (s : state) : state * verdict :=
  let (out, v) := beh (calls s) n in
  let s1 := {| log := log s ++ [Called n]; calls := S (calls s); last := last s |} in
  let s2 := match md with All => say (Shown out) s1 | OnFailure => set_last (last s1 ++ out) s1 | Null => s1 end in
  match v with
  | Passed => (say PassedLine (match md with OnFailure => set_last [] s2 | _ => s2 end), Passed)
  | _ => (s2, v)
  end.
Fixpoint repeat_run (k : nat) (md : mode) (n : text) (s : state) : state * verdict :=
  match k with
  | O => (s, Passed)
  | S k' => let (s1, v) := one_run md n s in match v with Passed => repeat_run k' md n s1 | _ => (s1, v) end
  end.
(** TestMap.cpp:72-160 InternalRun *)
Definition internal_run (n : text) (s : state) : state * verdict :=
  let s1 := say (Name n) s in
  match output_mode with Some md => repeat_run loop_count md n s1 | None => (s1, Failed) end.

(** TestConsole.cpp:44-66; None is a TestException *)
Definition filter_fun (f n : text) : option bool := match f with [] => Some true | _ => matches f n end.
(** TestMap.h:44-47 GetCount *)
Fixpoint get_count (f : text) (m : list text) : option nat :=
  match m with
  | [] => Some O
  | n :: r => match filter_fun f n with Some b => match get_count f r with Some k => Some (if b then S k else k) | None => None end | None => None end
  end.
(** TestMap.cpp:34-44 Run *)
Definition run_named (m : list text) (n : text) (s : state) : state * verdict :=
  if existsb (text_eqb n) m then internal_run n s else (s, Failed).
(** TestMap.cpp:46-57 RunAll *)
Fixpoint run_all (f : text) (m : list text) (s : state) : state * verdict :=
  match m with
  | [] => (s, Passed)
  | n :: r => match filter_fun f n with
              | Some true => let (s1, v) := internal_run n s in match v with Passed => run_all f r s1 | _ => (s1, v) end
              | Some false => run_all f r s
              | None => (s, Failed)
              end
  end.
(** TestConsole.cpp:111-114 *)
Fixpoint run_each (m ns : list text) (s : state) : state * verdict :=
  match ns with
  | [] => (s, Passed)
  | n :: r => let (s1, v) := run_named m n s in match v with Passed => run_each m r s1 | _ => (s1, v) end
  end.
(** TestMap.cpp:59-70 PrintNames; false is a TestException *)
Fixpoint print_names (f : text) (m : list text) (s : state) : state * bool :=
  match m with
  | [] => (s, true)
  | n :: r => match filter_fun f n with Some true => print_names f r (say (Listed n) s) | Some false => print_names f r s | None => (s, false) end
  end.

(** How the process goes on: Run returns an int, or the exception is not caught. *)
Inductive ending := Returns (code : Z) | Terminates.
(** TestConsole.cpp:68-145: RunTests returns a bool, Run an int.  The second list is the chain
    that is left (Shutdown, TestChain.h:61-69). *)
Definition console_run (chain : list text) (s : state) : state * ending * list text :=
  let error s := (say ErrorLine s, Returns 2, chain) in
  match test_map chain [] with
  | Ok m =>
    if negb (number_attribute FBool s_list 0 =? 0) then
      let f := text_attribute s_filter [] in
      let (s1, ok) := print_names f m s in
      match ok, get_count f m with true, Some k => (say (Total k) s1, Returns 0, chain) | _, _ => error s1 end
    else
      let run := set_attribute s_run in
      let f := text_attribute s_filter s_tests in
      let (s1, v) := match run with
                     | [] => match get_count f m with Some _ => run_all f m s | None => (s, Failed) end
                     | _ => run_each m run s
                     end in
      match v with
      | Passed => (say (Verdict true) s1, Returns 1, [])
      | Failed => (say (Verdict false) (say (LastOutput (last s1)) s1), Returns 0, [])
      | Crashed => (s1, Terminates, chain)
      end
  | _ => error s
  end.
End Run.

(** Main/main.cpp:15-25: the exit code of the process *)
Definition main (beh : nat -> text -> text * verdict) (matches : text -> text -> option bool) (chain args : list text) : list event * ending :=
  match parse args with
  | Ok o => let '(s, e, _) := console_run beh matches o chain {| log := []; calls := 0; last := [] |} in (log s, e)
  | _ => ([ErrorLine], Returns 0)
  end.
