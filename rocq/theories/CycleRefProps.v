(** * CycleRefProps: C33, which references are traced

    With cycle detection on, no local reference is made: core.pyx 57-65 ([_get_local_actor]
    answers None when [_log_cycle_send] is set), 84-109 ([create_local_actor_ref],
    [create_actor_ref]).  [log_cycle_send] is set by [set_debug_options] (core.pyx 49-55, debug.py
    56-63), when xoscar is imported (debug.py 66-78, 205) or at any later time.  Local references
    that were made before stay local.  So the calls that [CycleProps] shows to be missed, through local
    references, need a reference older than the detection.

    Reading guide.  [reaches on0 w h]: a process whose detection is [on0] at first, after the world's
    events [h] (newest first): [Switch], [Make] (a reference to an actor, of a pool of this process or not),
    [Client], [Use p r u warned] (invocation [p] uses reference [r] in way [u]) and [Over].

    Simplification: only the calls made while the detection is on are there (the others leave no trace and
    are not reported; an invocation begun before the switch is one with an empty trace). *)
From Coq Require Import List Bool Arith Lia.
From Verif Require Import CycleModel CycleProps.
Import ListNotations.

Inductive way := ByCall | ByYield | ByTell | InTask.
(** core.pyx 84-109: the kind of call follows from the reference. *)
Definition kind_of (local : bool) (u : way) : kind :=
  match local, u with
  | false, ByCall => Send | false, ByYield => YieldSend | false, ByTell => Tell | false, InTask => TaskSend
  | true, ByCall => LocalSend | true, ByYield => LocalYield | true, ByTell => LocalTell | true, InTask => LocalTell
  end.
Record world := mkW { on : bool; refs : list (nat * bool); invs : st; hist : list event }.
Inductive wevent := Switch (b : bool) | Make (target : nat) (same_process : bool) | Client (target : nat) | Use (p r : nat) (u : way) (warned : bool) | Over (i : nat).
Inductive wstep : world -> wevent -> world -> Prop :=
| w_switch w b : wstep w (Switch b) (mkW b (refs w) (invs w) (hist w))
| w_make w a same : wstep w (Make a same) (mkW (on w) (refs w ++ [(a, same && negb (on w))]) (invs w) (hist w))
| w_client w a s' : on w = true -> step (invs w) (Outside a) s' -> wstep w (Client a) (mkW (on w) (refs w) s' (Outside a :: hist w))
| w_use w p r a l u wd s' : on w = true -> nth_error (refs w) r = Some (a, l) -> step (invs w) (Start p (kind_of l u) a wd) s' ->
    wstep w (Use p r u wd) (mkW (on w) (refs w) s' (Start p (kind_of l u) a wd :: hist w))
| w_over w i s' : step (invs w) (Finish i) s' -> wstep w (Over i) (mkW (on w) (refs w) s' (Finish i :: hist w)).
Inductive reaches (on0 : bool) : world -> list wevent -> Prop :=
| r_start : reaches on0 (mkW on0 [] [] []) []
| r_step w h e w' : reaches on0 w h -> wstep w e w' -> reaches on0 w' (e :: h).

Lemma reaches_reach on0 w h : reaches on0 w h -> reach (invs w) (hist w).
Proof. induction 1 as [|w h e w' R IH S]; cbn; [constructor|]. destruct S; cbn; auto; econstructor; eauto. Qed.
Definition never_off (h : list wevent) : Prop := forall b, In (Switch b) h -> b = true.
Definition ways (us : list way) (h : list wevent) : Prop := forall p r u wd, In (Use p r u wd) h -> In u us.
Lemma all_remote w h : reaches true w h -> never_off h -> on w = true /\ (forall a l, In (a, l) (refs w) -> l = false) /\
  forall us, ways us h -> only (map (kind_of false) us) (hist w).
Proof.
  induction 1 as [|w h e w' R IH S]; intros N; [split; [auto|]; split; [intros a l []|intros us _ p k a wd []]|].
  destruct IH as (O & L & K). { intros b J. apply N. now right. }
  assert (K' : forall us, ways us (e :: h) -> only (map (kind_of false) us) (hist w)) by (intros us W; apply K; intros p r u wd J; apply (W p r u wd); now right).
  destruct S as [w b|w a same|w a s' ON S|w p r a l u wd s' ON E S|w i s' S]; cbn.
  - split; [apply N; now left|]. split; auto.
  - split; auto. split; auto. intros a' l J. apply in_app_or in J. destruct J as [J|[J|[]]]; [eauto|]. inversion J. rewrite O. apply andb_false_r.
  - split; auto. split; auto. intros us W p k a' wd [J|J]; [discriminate|]. now apply (K' us W p k a' wd).
  - split; auto. split; auto. intros us W p' k a' wd' [J|J]; [|now apply (K' us W p' k a' wd')]. inversion J; subst.
    assert (l = false) by (apply (L a' l); now apply (nth_error_In (refs w) r)). subst l. apply in_map. apply (W p' r u wd'). now left.
  - split; auto. split; auto. intros us W p k a' wd [J|J]; [discriminate|]. now apply (K' us W p k a' wd).
Qed.

(** Detection that is on from the start of the process (DEBUG_OSCAR=1): nothing is reported but cycles,
    background tasks apart. *)
Theorem C33_on_from_the_start_partial : forall w h p r u wd w', reaches true w h -> never_off h -> ways [ByCall; ByYield; ByTell] (Use p r u wd :: h) ->
  wstep w (Use p r u wd) w' -> wd = true -> exists a l, nth_error (refs w) r = Some (a, l) /\ l = false /\ cycle (hist w) p (kind_of l u) a.
Proof.
  intros w h p r u wd w' R N W S T. assert (R2 : reaches true w' (Use p r u wd :: h)) by (econstructor; eauto).
  assert (N2 : never_off (Use p r u wd :: h)) by (intros b [J|J]; [discriminate|auto]).
  destruct (all_remote w' _ R2 N2) as (_ & _ & K). specialize (K _ W). destruct (all_remote w h R N) as (_ & L & _).
  inversion S; subst. exists a, l. split; auto. assert (l = false) by (apply (L a l); eapply nth_error_In; eauto). split; auto.
  match goal with HS : step _ (Start _ _ _ _) _ |- _ => apply (C33_reports_are_cycles_partial _ _ _ _ _ _ _ (reaches_reach _ _ _ R)) with (2 := HS) end; auto.
  intros p' k a' w0 J. apply K in J. cbn in J. cbn. intuition.
Qed.
(** ... and exactly the cycles, if no method yields either: actors of the same pool included. *)
Theorem C33_exact_from_the_start_partial : forall w h p r u wd w', reaches true w h -> never_off h -> ways [ByCall; ByTell] (Use p r u wd :: h) ->
  wstep w (Use p r u wd) w' -> exists a l, nth_error (refs w) r = Some (a, l) /\ (wd = true <-> cycle (hist w) p (kind_of l u) a).
Proof.
  intros w h p r u wd w' R N W S. assert (R2 : reaches true w' (Use p r u wd :: h)) by (econstructor; eauto).
  assert (N2 : never_off (Use p r u wd :: h)) by (intros b [J|J]; [discriminate|auto]).
  destruct (all_remote w' _ R2 N2) as (_ & _ & K). specialize (K _ W).
  inversion S; subst. exists a, l. split; auto.
  match goal with HS : step _ (Start _ _ _ _) _ |- _ => apply (C33_remote_calls_exact_partial _ _ _ _ _ _ _ (reaches_reach _ _ _ R)) with (2 := HS) end.
  intros p' k a' w0 J. apply K in J. cbn in J. cbn. intuition.
Qed.

(** A tell waits for nothing, and is not reported, through whatever reference. *)
Theorem C33_tell_through_any_reference : forall on0 w h p r wd w', reaches on0 w h -> wstep w (Use p r ByTell wd) w' ->
  wd = false /\ forall a l, nth_error (refs w) r = Some (a, l) -> ~ cycle (hist w) p (kind_of l ByTell) a.
Proof.
  intros on0 w h p r wd w' R S. inversion S; subst. assert (X : kind_of l ByTell = Tell \/ kind_of l ByTell = LocalTell) by (destruct l; auto).
  match goal with HS : step _ (Start _ _ _ _) _ |- _ => destruct (C33_tells_not_reported _ _ _ _ _ _ _ (reaches_reach _ _ _ R) HS X) as [Y Z] end.
  split; auto. intros a' l' E. congruence.
Qed.

(** Claim: once the detection is on, every cycle is reported, if no method yields and there are no tasks. *)
Definition switched_claim : Prop := forall on0 w h p r u wd w', reaches on0 w h -> ways [ByCall; ByTell] (Use p r u wd :: h) ->
  wstep w (Use p r u wd) w' -> forall a l, nth_error (refs w) r = Some (a, l) -> cycle (hist w) p (kind_of l u) a -> wd = true.
(** Two actors of one pool, with references from before [set_debug_options], wait for each other unreported. *)
Theorem C33_switched_on_later_refuted : ~ switched_claim.
Proof.
  intros C.
  assert (R : exists w w', reaches false w [Use 0 1 ByCall false; Client 1; Switch true; Make 2 true; Make 1 true] /\ wstep w (Use 1 0 ByCall false) w' /\ nth_error (refs w) 0 = Some (1, true) /\ hist w = [Start 0 LocalSend 2 false; Outside 1]).
  { eexists _, _. split; [|split; [|split]].
    - eapply r_step; [eapply r_step; [eapply r_step; [eapply r_step; [eapply r_step; [apply r_start|]|]|]|]|].
      + apply w_make.
      + apply w_make.
      + apply w_switch.
      + apply w_client; [reflexivity|]. apply step_outside.
      + eapply w_use; [reflexivity|reflexivity|]. cbn. eapply step_start; [reflexivity|now left|reflexivity].
    - eapply w_use; [reflexivity|reflexivity|]. cbn. eapply step_start; [reflexivity|now left|reflexivity].
    - reflexivity.
    - reflexivity. }
  destruct R as (w & w' & R & S & E & H). assert (X : false = true); [|discriminate].
  eapply (C false w _ 1 0 ByCall false w' R); eauto.
  - intros p r u wd. cbn. intros [J|[J|[J|[J|[J|[J|[]]]]]]]; inversion J; subst; cbn; auto.
  - rewrite H. split; auto. exists 0. cbn. repeat split; auto. intuition discriminate.
Qed.

Module Demo.
(** The same with the detection on before the references are made: reported. *)
Example demo : exists w w', reaches true w [Use 0 1 ByCall false; Client 1; Make 2 true; Make 1 true] /\ wstep w (Use 1 0 ByCall true) w'.
Proof.
  eexists _, _. split.
  - eapply r_step; [eapply r_step; [eapply r_step; [eapply r_step; [apply r_start|]|]|]|].
    + apply w_make.
    + apply w_make.
    + apply w_client; [reflexivity|]. apply step_outside.
    + eapply w_use; [reflexivity|reflexivity|]. cbn. eapply step_start; [reflexivity|now left|reflexivity].
  - eapply w_use; [reflexivity|reflexivity|]. cbn. eapply step_start; [reflexivity|now left|reflexivity].
Qed.
End Demo.

Print Assumptions C33_on_from_the_start_partial.
Print Assumptions C33_exact_from_the_start_partial.
Print Assumptions C33_switched_on_later_refuted.
Print Assumptions C33_tell_through_any_reference.
