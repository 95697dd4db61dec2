(** Who is told, up to the first observer that throws, and what the observers know. *)
From Verif Require Import Common ObsThrowModel GroupObsModel GroupObsSpec GroupThrowModel.

Section Spec.
Context {T : Type} (pk fk : T -> Z).

(** The observers [os], up to the first one that throws *)
Inductive upto (bad : nat -> bool) : list nat -> list nat -> bool -> Prop :=
| U_all os : (forall i, In i os -> bad i = false) -> upto bad os os false
| U_bad a i b : (forall j, In j a -> bad j = false) -> bad i = true -> upto bad (a ++ i :: b) (a ++ [i]) true.
(** Each of them has got the call c, in this order it is the latest one; the others have not. *)
Definition told {C : Type} (l l' : nat -> list C) (c : C) (os : list nat) : Prop :=
  forall i, l' i = if in_dec Nat.eq_dec i os then c :: l i else l i.
Definition silent {C : Type} (l l' : nat -> list C) : Prop := forall i, l' i = l i.

(** Somebody observes a group with the key k: these, in the order of their subscription *)
Definition observe (s : tst (T := T)) (k : Z) (os : list nat) : Prop := exists g, In (g, os) (grs (fs s)) /\ has_key fk g k.
Definition of_key (l : list T) (k : Z) (z : T) : Prop := In z l /\ fk z = k.

Definition observes (s : tst (T := T)) (i : nat) : Prop := exists k os, observe s k os /\ In i os.
(** The same groups with the same observers *)
Definition same_observers (s s' : tst (T := T)) : Prop := (forall k os, observe s' k os <-> observe s k os) /\ watch (fs s') = watch (fs s).
Definition source (s : tst (T := T)) (P : T -> Prop) : Prop := forall z, In z (src s) <-> P z.

(** What a statement does, with the observers [bad] that throw: which observers are told what, who stays subscribed, what is in the source and
    how the statement ends. *)
Inductive effect (bad : nat -> bool) (s : tst (T := T)) : top (T := T) -> tst (T := T) -> fin -> Prop :=
| E_present v z : In z (src s) -> pk z = pk v -> effect bad s (TAdd v) s Returns
(* an element of a group *)
| E_join v os l x s' :
  (forall z, In z (src s) -> pk z <> pk v) -> observe s (fk v) os -> upto bad os l x ->
  told (glog (fs s)) (glog (fs s')) (KAdded v) l -> silent (wlog (fs s)) (wlog (fs s')) ->
  same_observers s s' -> source s' (fun z => z = v \/ In z (src s)) -> effect bad s (TAdd v) s' (thrown x)
(* a new group *)
| E_new v l x s' :
  (forall z, In z (src s) -> pk z <> pk v) -> ~ has_key fk (src s) (fk v) -> upto bad (watch (fs s)) l x ->
  told (wlog (fs s)) (wlog (fs s')) (GAdded [v]) l -> silent (glog (fs s)) (glog (fs s')) ->
  (forall k os, observe s' k os <-> observe s k os \/ k = fk v /\ os = []) -> watch (fs s') = watch (fs s) ->
  source s' (fun z => z = v \/ In z (src s)) -> effect bad s (TAdd v) s' (thrown x)
| E_absent k : (forall z, In z (src s) -> pk z <> k) -> effect bad s (TErase k) s Returns
(* not the last one of its group *)
| E_part v z os l x s' :
  In v (src s) -> In z (src s) -> z <> v -> fk z = fk v -> observe s (fk v) os -> upto bad os l x ->
  told (glog (fs s)) (glog (fs s')) (KRemoving v) l -> silent (wlog (fs s)) (wlog (fs s')) ->
  same_observers s s' -> source s' (fun z => In z (src s) /\ (x = false -> z <> v)) -> effect bad s (TErase (pk v)) s' (thrown x)
(* the last one, and an observer of the foreign_set throws *)
| E_last_throws v l s' :
  In v (src s) -> (forall z, In z (src s) -> fk z = fk v -> z = v) -> upto bad (watch (fs s)) l true ->
  told (wlog (fs s)) (wlog (fs s')) (GRemoving [v]) l -> silent (glog (fs s)) (glog (fs s')) ->
  same_observers s s' -> source s' (fun z => In z (src s)) -> effect bad s (TErase (pk v)) s' Throws
(* or none does, but one of the group, whose destructor lets nothing out *)
| E_last_terminates v os i s' :
  In v (src s) -> (forall z, In z (src s) -> fk z = fk v -> z = v) -> (forall j, In j (watch (fs s)) -> bad j = false) ->
  observe s (fk v) os -> In i os -> bad i = true -> effect bad s (TErase (pk v)) s' Terminates
| E_last v os s' :
  In v (src s) -> (forall z, In z (src s) -> fk z = fk v -> z = v) -> observe s (fk v) os ->
  (forall j, In j (watch (fs s)) \/ In j os -> bad j = false) ->
  told (wlog (fs s)) (wlog (fs s')) (GRemoving [v]) (watch (fs s)) -> told (glog (fs s)) (glog (fs s')) KClearing os ->
  (forall k o, observe s' k o <-> observe s k o /\ k <> fk v) -> watch (fs s') = watch (fs s) ->
  source s' (fun z => In z (src s) /\ z <> v) -> effect bad s (TErase (pk v)) s' Returns
| E_empty : src s = [] -> effect bad s TClear s Returns
| E_clear_throws l s' :
  src s <> [] -> upto bad (watch (fs s)) l true -> told (wlog (fs s)) (wlog (fs s')) GClearing l -> silent (glog (fs s)) (glog (fs s')) ->
  same_observers s s' -> source s' (fun z => In z (src s)) -> effect bad s TClear s' Throws
| E_clear_terminates i s' :
  src s <> [] -> (forall j, In j (watch (fs s)) -> bad j = false) -> observes s i -> bad i = true -> effect bad s TClear s' Terminates
| E_clear l s' :
  src s <> [] -> (forall i, In i l <-> observes s i) -> (forall j, In j (watch (fs s)) \/ In j l -> bad j = false) ->
  told (wlog (fs s)) (wlog (fs s')) GClearing (watch (fs s)) -> told (glog (fs s)) (glog (fs s')) KClearing l ->
  (forall k os, ~ observe s' k os) -> watch (fs s') = watch (fs s) -> source s' (fun _ => False) -> effect bad s TClear s' Returns
(* an observer comes, and reads what is there *)
| E_observe i k os s' :
  ~ observes s i -> ~ In i (watch (fs s)) -> observe s k os -> (forall j, j <> i -> glog (fs s') j = glog (fs s) j) -> (forall z, shows (glog (fs s') i) z <-> of_key (src s) k z) ->
  silent (wlog (fs s)) (wlog (fs s')) -> (forall k' o, observe s' k' o <-> k' <> k /\ observe s k' o \/ k' = k /\ o = os ++ [i]) -> watch (fs s') = watch (fs s) ->
  src s' = src s -> effect bad s (TObserve i k) s' Returns
| E_watch i s' :
  ~ observes s i -> ~ In i (watch (fs s)) -> (forall j, j <> i -> wlog (fs s') j = wlog (fs s) j) -> (forall k, wshows fk (wlog (fs s') i) k <-> has_key fk (src s) k) ->
  silent (glog (fs s)) (glog (fs s')) -> (forall k o, observe s' k o <-> observe s k o) -> watch (fs s') = watch (fs s) ++ [i] ->
  src s' = src s -> effect bad s (TWatch i) s' Returns
(* one goes *)
| E_leave i s' :
  (forall j, j <> i -> glog (fs s') j = glog (fs s) j) -> (forall j, j <> i -> wlog (fs s') j = wlog (fs s) j) -> glog (fs s') i = [] ->
  (forall k o, observe s' k o <-> exists os, observe s k os /\ o = leave i os) -> watch (fs s') = leave i (watch (fs s)) ->
  src s' = src s -> effect bad s (TLeave i) s' Returns.

(** What can be called: an observer observes one thing, a group is observed while it exists. *)
Definition valid (s : tst (T := T)) (o : top (T := T)) : Prop :=
  match o with
  | TObserve i k => subscribed i (fs s) = false /\ has_key fk (src s) k
  | TWatch i => subscribed i (fs s) = false
  | _ => True
  end.
(** The exceptions are caught and the program goes on; it does not when it is terminated. *)
Inductive reach : tst (T := T) -> Prop :=
| R0 : reach tinit
| RS bad s o s' x : reach s -> valid s o -> tstep pk fk bad o s = Ok (s', x) -> x <> Terminates -> reach s'.

(** The observer i, which is subscribed, knows exactly what it observes. *)
Definition in_step (s : tst (T := T)) (i : nat) : Prop :=
  (forall k os, observe s k os -> In i os -> forall z, shows (glog (fs s) i) z <-> of_key (src s) k z) /\
  (In i (watch (fs s)) -> forall k, wshows fk (wlog (fs s) i) k <-> has_key fk (src s) k).

(** The element v is erased again and again, until the statement returns. *)
Inductive erased (v : T) : tst (T := T) -> tst (T := T) -> Prop :=
| Er_done bad s s' : tstep pk fk bad (TErase (pk v)) s = Ok (s', Returns) -> erased v s s'
| Er_again bad s s1 s' : tstep pk fk bad (TErase (pk v)) s = Ok (s1, Throws) -> erased v s1 s' -> erased v s s'.
End Spec.
