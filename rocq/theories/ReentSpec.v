(** What the observers know, and which of their reactions are proper. *)
From Verif Require Import Common ObsThrowModel ReentModel GroupObsSpec.

Definition know (n : rnode) (z : Z) : Prop :=
  match n with
  | RMirror ms => In z ms
  | RUser log _ => shows log z
  end.
Definition in_set (s : rstate) (z : Z) : Prop := In z (map snd (rxs s)).
Definition in_step (s : rstate) : Prop := forall p n, nth_error (rsubs s) p = Some n -> forall z, know n z <-> in_set s z.

(** A notification of v that has not ended *)
Definition under_way (v : Z) (st : list frame) : Prop := exists id k, In (FAdd id v k) st \/ In (FRem id v k) st.
Definition clearing (st : list frame) : Prop := exists k, In (FClr k) st.
Definition quiet (st : list frame) : Prop := forall f, In f st -> exists l, f = FActs l.
(** Nothing is done while the set is being cleared, an element is not erased while the observers are being told of it, and the set is
    not cleared by an observer. *)
Definition proper (s : rstate) : Prop :=
  match rstack s with
  | FActs (AInsert _ :: _) :: r => ~ clearing r
  | FActs (AErase v :: _) :: r => ~ clearing r /\ ~ under_way v r
  | FActs (AClear :: _) :: r => quiet r
  | _ => True
  end.
(** The states of a program whose observers are proper *)
Inductive reach (s0 : rstate) : rstate -> Prop :=
| R0 : reach s0 s0
| RS s s' : reach s0 s -> proper s -> rtick s = Ok s' -> reach s0 s'.

(** Observers that know nothing yet *)
Definition fresh (n : rnode) : Prop := match n with RMirror ms => ms = [] | RUser log _ => log = [] end.
