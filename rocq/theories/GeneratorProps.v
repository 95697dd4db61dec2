(** Theorems about generators (C53). *)
From Coq Require Import ZifyBool ZifyNat.
From Verif Require Import Common GeneratorModel.

(** ** Specification: the sequence of values of a body *)
Section Spec.
Context {S V : Type} (step : S -> res (gout V S)).

(** What follows the first values: more of them from a state of the body, the end, or an exception. *)
Inductive rest := RMore (s : S) | REnd | RExn (e : exn).

(** [yields s vs r]: the body started in [s] yields the values [vs] and then [r]. *)
Inductive yields : S -> list V -> rest -> Prop :=
| YMore s : yields s [] (RMore s)
| YEnd s : step s = Ok GReturn -> yields s [] REnd
| YExn s e : step s = Ok (GThrow e) -> yields s [] (RExn e)
| YCons s v s' vs r : step s = Ok (GYield v s') -> yields s' vs r -> yields s (v :: vs) r.

(** What a loop makes of a sequence. *)
Fixpoint fold_until {A} (f : A -> V -> A * bool) (acc : A) (vs : list V) : A * bool :=
  match vs with
  | [] => (acc, true)
  | v :: vs' => let (acc', go) := f acc v in if go then fold_until f acc' vs' else (acc', false)
  end.

End Spec.
Arguments rest : clear implicits.

Section Proofs.
Context {S V : Type} (step : S -> res (gout V S)).

(** The loop standing at the value [v], with the rest of the body to come. *)
Lemma gloop_end {A} (f : A -> V -> A * bool) vs : forall v s r acc fuel,
  yields step s vs r -> length vs + 2 <= fuel -> snd (fold_until f acc (v :: vs)) = true ->
  (forall s', r <> RMore s') ->
  gloop step f fuel acc (Some (GFrame (GSuspended s) (Some v) None)) =
  Ok (fst (fold_until f acc (v :: vs)), Some (GFrame GDone None match r with RExn e => Some e | _ => None end),
      match r with RExn e => LRaise e | _ => LEnd end).
Proof.
  induction vs as [|v' vs IH]; intros v s r acc fuel Hy Hf Hgo Hr; (destruct fuel as [|fuel]; [lia|]);
    cbn [gloop gend gdone gcode gderef gvalue rbind]; cbn [fold_until] in *; destruct (f acc v) as [acc' go] eqn:Ef;
    destruct go; try discriminate.
  - cbn [gnext]. unfold gadvance, gresume. cbn [gcode gexn].
    inversion Hy as [?|? Hs|? e Hs|]; subst.
    + now destruct (Hr s).
    + rewrite Hs. destruct fuel as [|fuel]; [cbn in Hf; lia|]. reflexivity.
    + rewrite Hs. reflexivity.
  - cbn [gnext]. unfold gadvance, gresume. cbn [gcode gexn].
    inversion Hy as [| | |? ? s' ? ? Hs Hy']; subst. rewrite Hs. cbn [rbind gdone gcode].
    rewrite (IH v' s' r acc' fuel Hy'); auto. cbn in Hf. lia.
Qed.

Lemma gloop_break {A} (f : A -> V -> A * bool) vs : forall v s s' w acc fuel,
  yields step s vs (RMore s') -> length vs < fuel -> last (v :: vs) v = w ->
  snd (fold_until f acc (removelast (v :: vs))) = true ->
  snd (f (fst (fold_until f acc (removelast (v :: vs)))) w) = false ->
  gloop step f fuel acc (Some (GFrame (GSuspended s) (Some v) None)) =
  Ok (fst (f (fst (fold_until f acc (removelast (v :: vs)))) w), Some (GFrame (GSuspended s') (Some w) None), LBreak).
Proof.
  induction vs as [|v' vs IH]; intros v s s' w acc fuel Hy Hf Hl H1 H2; (destruct fuel as [|fuel]; [lia|]);
    cbn [gloop gend gdone gcode gderef gvalue rbind].
  - cbn in Hl. subst w. cbn in H2. inversion Hy; subst. cbn [removelast fold_until fst]. destruct (f acc v) as [acc' go]. cbn in H2. now subst go.
  - change (removelast (v :: v' :: vs)) with (v :: removelast (v' :: vs)) in *. cbn [fold_until] in *.
    destruct (f acc v) as [acc' go] eqn:Ef. destruct go; [|discriminate].
    cbn [gnext]. unfold gadvance, gresume. cbn [gcode gexn].
    inversion Hy as [| | |? ? s1 ? ? Hs Hy']; subst. rewrite Hs. cbn [rbind gdone gcode].
    apply IH; auto. { cbn in Hf. lia. }
    clear. revert v'. induction vs as [|x vs IHv]; intros v'; auto. change (last (v' :: x :: vs) v' = last (v :: v' :: x :: vs) v).
    transitivity (last (x :: vs) v'); [reflexivity|]. transitivity (last (x :: vs) v); [|reflexivity].
    clear. revert x. induction vs as [|y vs IHv]; intros x; auto. apply (IHv y).
Qed.

End Proofs.

(** ** Theorems *)

(** A range-based for loop over a generator passes exactly the values that the body yields to the body of the loop, in that
    order, and ends as the generator does: normally, or with its exception. *)
Theorem generator_for {S V A} (step : S -> res (gout V S)) (f : A -> V -> A * bool) s vs r acc fuel :
  yields step s vs r -> (forall s', r <> RMore s') -> snd (fold_until f acc vs) = true -> length vs < fuel ->
  gfor step f fuel acc (Some (gcreate s)) =
  Ok (fst (fold_until f acc vs), Some (GFrame GDone None match r with RExn e => Some e | _ => None end),
      match r with RExn e => LRaise e | _ => LEnd end).
Proof.
  intros Hy Hr Hgo Hf. unfold gfor, gcreate. cbn [gbegin]. unfold gadvance, gresume. cbn [gcode gexn].
  inversion Hy as [?|? Hs|? e Hs|? v s' vs' ? Hs Hy']; subst.
  - now destruct (Hr s).
  - rewrite Hs. destruct fuel as [|fuel]; [simpl in Hf; lia|]. reflexivity.
  - rewrite Hs. reflexivity.
  - rewrite Hs. cbn [rbind gdone gcode]. apply gloop_end; auto. simpl in Hf. lia.
Qed.

(** The generator is lazy, so it may be infinite: when the loop is left at a value, the body has been executed to the
    co_yield of that value and not further. *)
Theorem generator_lazy {S V A} (step : S -> res (gout V S)) (f : A -> V -> A * bool) s vs w s' acc fuel :
  yields step s (vs ++ [w]) (RMore s') -> snd (fold_until f acc vs) = true ->
  snd (f (fst (fold_until f acc vs)) w) = false -> length vs < fuel ->
  gfor step f fuel acc (Some (gcreate s)) =
  Ok (fst (f (fst (fold_until f acc vs)) w), Some (GFrame (GSuspended s') (Some w) None), LBreak).
Proof.
  intros Hy H1 H2 Hf. unfold gfor, gcreate. cbn [gbegin]. unfold gadvance, gresume. cbn [gcode gexn].
  remember (vs ++ [w]) as l eqn:Hl. destruct l as [|v l]; [destruct vs; discriminate|].
  inversion Hy as [| | |? ? s1 ? ? Hs Hy']; subst. rewrite Hs. cbn [rbind gdone gcode].
  assert (R : removelast (v :: l) = vs) by (rewrite Hl; apply removelast_last).
  assert (L : last (v :: l) v = w) by (rewrite Hl; apply last_last).
  assert (N : length l = length vs) by (apply (f_equal (@length V)) in Hl; rewrite app_length in Hl; simpl in Hl; lia).
  rewrite <- R. apply gloop_break; auto; try lia; now rewrite R.
Qed.

(** fmap yields the images of the values of the source, up to an exception of the function. *)
Fixpoint map_until {V W} (func : V -> exn + W) (vs : list V) : list W * option exn :=
  match vs with
  | [] => ([], None)
  | v :: vs' => match func v with inl e => ([], Some e) | inr w => let (ws, x) := map_until func vs' in (w :: ws, x) end
  end.

Lemma fmap_step_eq {S V W} (step : S -> res (gout V S)) (func : V -> exn + W) (begun : bool) s v0 :
  fmap_step step func (begun, Some (GFrame (GSuspended s) v0 None)) =
  let* o := step s in
  match o with
  | GYield v s' => match func v with inl e => Ok (GThrow e) | inr w => Ok (GYield w (true, Some (GFrame (GSuspended s') (Some v) None))) end
  | GReturn => Ok GReturn
  | GThrow e => Ok (GThrow e)
  end.
Proof.
  unfold fmap_step. destruct begun; cbn [gnext gbegin]; unfold gadvance, gresume; cbn [gcode gexn];
    destruct (step s) as [[v s'| |e]|e|]; cbn [rbind gdone gcode gexn gend gderef gvalue]; reflexivity.
Qed.

Lemma fmap_yields {S V W} (step : S -> res (gout V S)) (func : V -> exn + W) vs : forall begun s v0 r,
  yields step s vs r -> (forall s', r <> RMore s') ->
  exists r', yields (fmap_step step func) (begun, Some (GFrame (GSuspended s) v0 None)) (fst (map_until func vs)) r' /\
    r' = match snd (map_until func vs), r with Some e, _ => RExn e | None, RExn e => RExn e | None, _ => REnd end.
Proof.
  induction vs as [|v vs IH]; intros begun s v0 r Hy Hr.
  - cbn. inversion Hy as [?|? Hs|? e Hs|]; subst.
    + now destruct (Hr s).
    + eexists. split; [|reflexivity]. apply YEnd. rewrite fmap_step_eq, Hs. reflexivity.
    + eexists. split; [|reflexivity]. apply YExn. rewrite fmap_step_eq, Hs. reflexivity.
  - inversion Hy as [| | |? ? s1 ? ? Hs Hy']; subst. cbn [map_until]. destruct (func v) as [e|w] eqn:Ef.
    + eexists. split; [|reflexivity]. apply YExn. rewrite fmap_step_eq, Hs. cbn [rbind]. now rewrite Ef.
    + destruct (IH true s1 (Some v) r Hy' Hr) as (r' & A & B). destruct (map_until func vs) as [ws x]. cbn [fst snd] in *.
      eexists. split; [|exact B]. eapply YCons; [|exact A]. rewrite fmap_step_eq, Hs. cbn [rbind]. now rewrite Ef.
Qed.

Theorem generator_fmap {S V W} (step : S -> res (gout V S)) (func : V -> exn + W) s vs r :
  yields step s vs r -> (forall s', r <> RMore s') ->
  yields (fmap_step step func) (false, Some (gcreate s)) (fst (map_until func vs))
    match snd (map_until func vs), r with Some e, _ => RExn e | None, RExn e => RExn e | None, _ => REnd end.
Proof. intros Hy Hr. destruct (fmap_yields step func vs false s None r Hy Hr) as (r' & A & ->). exact A. Qed.

(** fmap is lazy as well: to yield [n] images it takes [n] values from the source. *)
Theorem generator_fmap_lazy {S V W} (step : S -> res (gout V S)) (func : V -> exn + W) s vs s' :
  yields step s vs (RMore s') -> snd (map_until func vs) = None ->
  exists st, yields (fmap_step step func) (false, Some (gcreate s)) (fst (map_until func vs)) (RMore st) /\
    exists v0, snd st = Some (GFrame (GSuspended s') v0 None).
Proof.
  assert (A : forall vs begun s v0, yields step s vs (RMore s') -> snd (map_until func vs) = None ->
    exists st, yields (fmap_step step func) (begun, Some (GFrame (GSuspended s) v0 None)) (fst (map_until func vs)) (RMore st) /\
    exists v0, snd st = Some (GFrame (GSuspended s') v0 None)).
  { clear. induction vs as [|v vs IH]; intros begun s v0 Hy Hn.
    - inversion Hy; subst. eexists. split; [apply YMore|]. cbn. eauto.
    - inversion Hy as [| | |? ? s1 ? ? Hs Hy']; subst. cbn [map_until] in *. destruct (func v) as [e|w] eqn:Ef; [discriminate|].
      specialize (IH true s1 (Some v) Hy'). destruct (map_until func vs) as [ws x]. cbn [fst snd] in *.
      destruct (IH Hn) as (st & A & B). exists st. split; auto. eapply YCons; [|exact A]. rewrite fmap_step_eq, Hs. cbn [rbind]. now rewrite Ef. }
  intros Hy Hn. now apply A.
Qed.

(** An empty generator is an empty range. *)
Theorem generator_empty {S V A} (step : S -> res (gout V S)) (f : A -> V -> A * bool) acc fuel :
  0 < fuel -> gfor step f fuel acc None = Ok (acc, None, LEnd).
Proof. intros Hf. destruct fuel; [lia|reflexivity]. Qed.

(** A generator that counts up to a limit and then throws; its squares; a loop that takes the first three numbers of an
    infinite generator. *)
Definition count_step (limit : option nat) (n : nat) : res (gout nat nat) :=
  match limit with
  | Some l => if n <? l then Ok (GYield n (n + 1)) else Ok (GThrow RuntimeError)
  | None => Ok (GYield n (n + 1))
  end.

Definition collect (acc : list nat) (v : nat) : list nat * bool := (acc ++ [v], length acc <? 3).

Example generator_example :
  gfor (count_step (Some 3)) collect 10 [] (Some (gcreate 1)) = Ok ([1; 2], Some (GFrame GDone None (Some RuntimeError)), LRaise RuntimeError) /\
  gfor (count_step None) collect 10 [] (Some (gcreate 1)) = Ok ([1; 2; 3; 4], Some (GFrame (GSuspended 5) (Some 4) None), LBreak) /\
  yields (count_step (Some 3)) 1 [1; 2] (RExn RuntimeError) /\
  map_until (fun v => if v =? 3 then inl LogicError else inr (v * v)) [1; 2; 3; 4] = ([1; 4], Some LogicError) /\
  match gfor (fmap_step (count_step None) (fun v => inr (v * v))) collect 10 [] (Some (gcreate (false, Some (gcreate 1)))) with
  | Ok (l, _, LBreak) => l = [1; 4; 9; 16]
  | _ => False
  end.
Proof. repeat split; try reflexivity. repeat econstructor. Qed.

(** ** What begin does not do *)

(** A second loop over a generator does not start again: it goes on after the value at which the first one was left. *)
Theorem generator_second_loop_refuted :
  exists (step : nat -> res (gout nat nat)) s g l,
    gfor step collect 10 [] (Some (gcreate s)) = Ok ([1; 2; 3; 4], g, LBreak) /\
    gfor step collect 10 [] g = Ok (l, Some (GFrame (GSuspended 9) (Some 8) None), LBreak) /\ l <> [1; 2; 3; 4].
Proof.
  exists (count_step None), 1. do 2 eexists. split; [reflexivity|]. split; [reflexivity|]. discriminate.
Qed.

(** A loop over a generator that is at its end is undefined behaviour, not an empty loop. *)
Theorem generator_finished_loop_refuted :
  exists (step : nat -> res (gout nat nat)) s g l,
    gfor step collect 10 [] (Some (gcreate s)) = Ok (l, g, LRaise RuntimeError) /\ gend g = true /\ gfor step collect 10 [] g = UB.
Proof. exists (count_step (Some 3)), 1. do 2 eexists. split; [reflexivity|]. split; reflexivity. Qed.
