(** Specification of the atomic storage: one optional value. *)
From Verif Require Import Common AStoreModel.

Section Spec.
Context {V : Type} (enc : V -> bytes) (rd : bytes -> res (V * nat)).

(** What reading bytes means: a value was read from all of them, or they are refused. *)
Definition accepts (c : bytes) (v : V) : Prop := rd c = Ok (v, length c).
Definition rejects (c : bytes) : Prop :=
  (exists e, rd c = Throw e /\ (e = EndOfFile \/ e = Corruption \/ e = TypeMismatch \/ e = FieldNotFound \/ e = IoError)) \/
  (exists v n, rd c = Ok (v, n) /\ n <> length c).
Definition contents (c : bytes) (o : option V) : Prop := match o with Some v => accepts c v | None => rejects c end.

(** What is required of the format and of the crashes.  [good] are the values that are
    saved, [reads c o] that a file may contain [c] and that [o] is what is read from it.
    Saved values are read back, an empty file is refused, and a backup that was being
    written into an empty file, or being cleared, is not read as another value.  All that
    was written may be there after a crash.  Nothing is required of the master file, which
    is overwritten in place. *)
Context (good : V -> Prop).
(** Anything may be in a file, as long as no value that is not good is read from it. *)
Definition any_file (c : bytes) (o : option V) : Prop := contents c o /\ match o with Some v => good v | None => True end.
Context (reads : bytes -> option V -> Prop).
Record format_ok (torn : bytes -> bytes -> bytes -> Prop) : Prop := {
  fo_reads : forall c o, reads c o -> contents c o;
  fo_good : forall c v, reads c (Some v) -> good v;
  fo_current : forall d c, torn d c c;
  fo_round : forall v, good v -> reads (enc v) (Some v);
  fo_empty : reads [] None;
  fo_backup : forall v k c, good v -> torn [] (firstn k (enc v)) c -> reads c None \/ reads c (Some v);
  fo_clear : forall b o c, reads b o -> torn b [] c -> reads c None \/ reads c o }.

Definition clean (f : file) : Prop := dirty f = false /\ disk f = data f.
(** Between operations: the backup is empty and the master is durable. *)
Definition stored (st : storage) (o : option V) : Prop :=
  clean (master st) /\ clean (backup st) /\ data (backup st) = [] /\ reads (data (master st)) o.

(** Histories of saves and loads, completed or cut short after some of their steps, by a
    crash or (saves) by an error that the process survives.  After a crash the storage is
    loaded before it is saved to again; after an error a load or a save is completed. *)
Inductive event := Saved (v : V) | Attempted (v : V) | Loaded (r : option V) | Interrupted.
Inductive exec (torn : bytes -> bytes -> bytes -> Prop) : storage -> bool -> list event -> storage -> bool -> Prop :=
| x_nil st b : exec torn st b [] st b
| x_save st v tr st' b : good v -> exec torn (save enc v st) true tr st' b -> exec torn st true (Saved v :: tr) st' b
| x_save_crash st v k st1 tr st' b : good v -> crash torn (run st (firstn k (save_ops enc v))) st1 ->
    exec torn st1 false tr st' b -> exec torn st true (Attempted v :: tr) st' b
| x_fail_load st v k r st1 tr st' b : good v -> load enc rd (run st (firstn k (save_ops enc v))) = Ok (r, st1) ->
    exec torn st1 true tr st' b -> exec torn st true (Attempted v :: Loaded r :: tr) st' b
| x_fail_save st v k v' tr st' b : good v -> good v' -> exec torn (save enc v' (run st (firstn k (save_ops enc v)))) true tr st' b ->
    exec torn st true (Attempted v :: Saved v' :: tr) st' b
| x_load st b0 r st1 tr st' b : load enc rd st = Ok (r, st1) ->
    exec torn st1 true tr st' b -> exec torn st b0 (Loaded r :: tr) st' b
| x_load_crash st b0 k st1 tr st' b : crash torn (run st (firstn k (load_ops enc rd st))) st1 ->
    exec torn st1 false tr st' b -> exec torn st b0 (Interrupted :: tr) st' b.

(** What an atomic storage may show: a save that was cut short happened or did not. *)
Inductive allowed : option V -> list event -> option V -> Prop :=
| a_nil o : allowed o [] o
| a_saved o v tr o' : allowed (Some v) tr o' -> allowed o (Saved v :: tr) o'
| a_done o v tr o' : allowed (Some v) tr o' -> allowed o (Attempted v :: tr) o'
| a_undone o v tr o' : allowed o tr o' -> allowed o (Attempted v :: tr) o'
| a_loaded o tr o' : allowed o tr o' -> allowed o (Loaded o :: tr) o'
| a_interrupted o tr o' : allowed o tr o' -> allowed o (Interrupted :: tr) o'.
End Spec.
