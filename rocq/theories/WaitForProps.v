(** * C57: wait_for returns the call's outcome, or times out on time

    How to read.  [run falsy timeout t h s]: [wait_for] was called with a call in
    state [t] ([None]: still running), [timeout] says whether a time-out was given,
    [h] is what has happened since, [s] the state now.  [ended s] is how [wait_for]
    ended; [asked s] says whether the call has been asked to cancel. *)
From Coq Require Import List Bool Arith.
From Verif Require Import WaitForModel.
Import ListNotations.

(** ** Specification *)
(** The call ended with that outcome: it had before, or it did meanwhile. *)
Definition call_ended (t : option outcome) (h : list label) (o : outcome) : Prop := t = Some o \/ In (CallEnds o) h.
Definition call_pending (t : option outcome) (h : list label) : Prop := forall o, ~ call_ended t h o.
(** Nothing is left to run by itself *)
Definition settled (falsy : nat -> bool) (s : st) : Prop :=
  forall l s', step falsy false s l s' -> (exists o, l = CallEnds o) \/ l = CallerCancelled.

(** ** Proofs *)
Section proofs.
Context (falsy : nat -> bool) (timeout : bool).
Definition inv (t : option outcome) (h : list label) (s : st) : Prop :=
  (forall o, task s = Some o <-> call_ended t h o) /\
  (callback s = true -> task s <> None) /\
  (forall o, new_fut s = Some o -> o <> Cancelled -> task s = Some o) /\
  (new_fut s = Some Cancelled -> task s = Some Cancelled \/ ended s = Some TimedOut \/ (ended s = Some RaisedCancelled /\ In CallerCancelled h)) /\
  (forall o, task s = Some o -> callback s = false -> new_fut s = None -> exists e, o = Exc e /\ falsy e = true) /\
  (fired s = true -> timeout = true /\ In TimeUp h) /\
  (In TimeUp h -> fired s = true) /\
  (stop s = true <-> In CallerCancelled h) /\
  (forall v, ended s = Some (Returned v) -> task s = Some (Val v)) /\
  (forall e, ended s = Some (Raised e) -> task s = Some (Exc e)) /\
  (ended s = Some RaisedCancelled -> task s = Some Cancelled \/ In CallerCancelled h) /\
  (ended s = Some TimedOut -> fired s = true /\ (asked s = true \/ task s <> None)) /\
  (asked s = true -> ended s = Some TimedOut) /\
  (forall r, ended s = Some r <-> In (Ends r) h).

Lemma in_snoc {A} (h : list A) x y : In x (h ++ [y]) <-> In x h \/ x = y.
Proof. rewrite in_app_iff. cbn. split; intros [H|H]; auto. destruct H as [->|[]]; auto. Qed.
Lemma ended_snoc t h l o : call_ended t (h ++ [l]) o <-> call_ended t h o \/ l = CallEnds o.
Proof. unfold call_ended. rewrite in_snoc. intuition congruence. Qed.

Lemma inv_step t h s l s' : inv t h s -> step falsy timeout s l s' -> inv t (h ++ [l]) s'.
Proof.
  intros (I1 & I2 & I3 & I4 & I5 & I6 & I6' & I7 & I8 & I9 & I10 & I11 & I12 & I13) Hs.
  assert (Hn : forall r, ended s = None -> ~ In (Ends r) h) by (intros r E Hi; apply I13 in Hi; congruence).
  destruct Hs; unfold inv; cbn.
  - (* the call ends *)
    repeat split; intros; rewrite ?in_snoc, ?ended_snoc in *; try congruence; auto.
    + injection H0 as ->. now right.
    + destruct H0 as [H0|H0]; [apply I1 in H0; congruence|congruence].
    + rewrite (I3 _ H0 H1) in H. discriminate.
    + destruct (I4 H0) as [H1|[H1|[H1 H2]]]; [congruence|auto|right; right; auto].
    + now apply I6.
    + left. now apply I6.
    + apply I6'. destruct H0 as [H0|H0]; [exact H0|discriminate].
    + left. now apply I7.
    + apply I7. destruct H0 as [H0|H0]; [exact H0|discriminate].
    + rewrite (I8 _ H0) in H. discriminate.
    + rewrite (I9 _ H0) in H. discriminate.
    + destruct (I10 H0) as [H1|H1]; [congruence|auto].
    + now apply I11.
    + right. discriminate.
    + left. now apply I13.
    + apply I13. destruct H0 as [H0|H0]; [exact H0|discriminate].
  - (* on_done *)
    repeat split; intros; rewrite ?in_snoc, ?ended_snoc in *; try congruence; auto.
    + left. now apply I1.
    + apply I1. destruct H1 as [H1|H1]; [exact H1|discriminate].
    + unfold on_done in H1. destruct (new_fut s) as [o'|] eqn:En; [injection H1 as <-; now apply I3|].
      rewrite H0. f_equal. destruct t0; [congruence| |congruence]. destruct (falsy e); congruence.
    + unfold on_done in H1. destruct (new_fut s) as [o'|] eqn:En.
      * injection H1 as ->. destruct (I4 eq_refl) as [E|[E|[E1 E2]]]; auto.
      * left. rewrite H0. f_equal. destruct t0; [congruence| |reflexivity]. destruct (falsy e); congruence.
    + unfold on_done in H3. destruct (new_fut s) as [o'|] eqn:En; [discriminate|]. rewrite H0 in H1. injection H1 as <-.
      destruct t0; try discriminate. destruct (falsy e) eqn:Ef; [|discriminate]. now exists e.
    + now apply I6.
    + left. now apply I6.
    + apply I6'. destruct H1 as [H1|H1]; [exact H1|discriminate].
    + left. now apply I7.
    + apply I7. destruct H1 as [H1|H1]; [exact H1|discriminate].
    + destruct (I10 H1) as [H2|H2]; auto.
    + now apply I11.
    + left. now apply I13.
    + apply I13. destruct H1 as [H1|H1]; [exact H1|discriminate].
  - (* time up *)
    repeat split; intros; rewrite ?in_snoc, ?ended_snoc in *; try congruence; auto.
    + left. now apply I1.
    + apply I1. destruct H2 as [H2|H2]; [exact H2|discriminate].
    + destruct (I4 H2) as [E|[E|[E1 E2]]]; auto.
    + left. now apply I7.
    + apply I7. destruct H2 as [H2|H2]; [exact H2|discriminate].
    + destruct H2 as [H2|H2]; [|discriminate]. now apply I13.
  - (* the caller is cancelled *)
    repeat split; intros; rewrite ?in_snoc, ?ended_snoc in *; try congruence; auto.
    + left. now apply I1.
    + apply I1. destruct H0 as [H0|H0]; [exact H0|discriminate].
    + destruct (I4 H0) as [E|[E|[E1 E2]]]; auto.
    + now apply I6.
    + left. now apply I6.
    + apply I6'. destruct H0 as [H0|H0]; [exact H0|discriminate].
    + destruct H0 as [H0|H0]; [|discriminate]. now apply I13.
  - (* ends with the outcome *)
    repeat split; intros; rewrite ?in_snoc, ?ended_snoc in *; try congruence; auto.
    + left. now apply I1.
    + apply I1. destruct H1 as [H1|H1]; [exact H1|discriminate].
    + destruct (I4 H1) as [E|[E|[E1 E2]]]; [auto|congruence|congruence].
    + now apply I6.
    + left. now apply I6.
    + apply I6'. destruct H1 as [H1|H1]; [exact H1|discriminate].
    + left. now apply I7.
    + apply I7. destruct H1 as [H1|H1]; [exact H1|discriminate].
    + destruct o; cbn in H1; try discriminate. injection H1 as ->. apply I3; [exact H0|discriminate].
    + destruct o; cbn in H1; try discriminate. injection H1 as ->. apply I3; [exact H0|discriminate].
    + destruct o; cbn in H1; try discriminate. destruct (I4 H0) as [E|[E|[E1 E2]]]; [auto|congruence|congruence].
    + destruct o; discriminate.
    + destruct o; discriminate.
    + rewrite (I12 H1) in H. discriminate.
    + injection H1 as <-. now right.
    + destruct H1 as [H1|H1]; [now apply Hn in H1|congruence].
  - (* times out *)
    repeat split; intros; rewrite ?in_snoc, ?ended_snoc in *; try congruence; auto.
    + left. now apply I1.
    + apply I1. destruct H1 as [H1|H1]; [exact H1|discriminate].
    + destruct (new_fut s); [injection H1 as ->; now apply I3|congruence].
    + destruct (new_fut s); discriminate.
    + now apply I6.
    + left. now apply I6.
    + left. now apply I7.
    + apply I7. destruct H1 as [H1|H1]; [exact H1|discriminate].
    + destruct (task s); [right; discriminate|now left].
    + injection H1 as <-. now right.
    + destruct H1 as [H1|H1]; [now apply Hn in H1|congruence].
  - (* ends cancelled *)
    apply I7 in H0 as Hc.
    repeat split; intros; rewrite ?in_snoc, ?ended_snoc in *; try congruence; auto.
    + left. now apply I1.
    + apply I1. destruct H1 as [H1|H1]; [exact H1|discriminate].
    + destruct (new_fut s); [injection H1 as ->; now apply I3|congruence].
    + destruct (new_fut s); discriminate.
    + now apply I6.
    + left. now apply I6.
    + apply I6'. destruct H1 as [H1|H1]; [exact H1|discriminate].
    + rewrite (I12 H1) in H. discriminate.
    + injection H1 as <-. now right.
    + destruct H1 as [H1|H1]; [now apply Hn in H1|congruence].
Qed.
Lemma inv_run t h s : run falsy timeout t h s -> inv t h s.
Proof.
  induction 1 as [|h s l s' Hr IH Hs]; [|now apply (inv_step _ h s)].
  unfold inv, start, call_ended. cbn. repeat split; intros; try congruence; try (now destruct H); auto.
  - destruct t; congruence.
  - destruct t; congruence.
Qed.
End proofs.

(** ** Theorems *)
(** Whatever is returned or raised is the call's own outcome. *)
Theorem C57_truthful falsy timeout t h s : run falsy timeout t h s ->
  match ended s with
  | Some (Returned v) => call_ended t h (Val v)
  | Some (Raised e) => call_ended t h (Exc e)
  | Some RaisedCancelled => call_ended t h Cancelled \/ In CallerCancelled h
  | Some TimedOut => timeout = true /\ In TimeUp h
  | None => True
  end.
Proof.
  intros H. apply inv_run in H as (I1 & _ & _ & _ & _ & I6 & _ & _ & I8 & I9 & I10 & I11 & _).
  destruct (ended s) as [[v|e| |]|]; [apply I1, I8|apply I1, I9|destruct (I10 eq_refl); auto; left; now apply I1|apply I6, I11|exact I]; reflexivity.
Qed.
(** Once the time is up, [wait_for] can end at once, whatever the call does, until it has ended. *)
Theorem C57_time_up falsy timeout t h s : run falsy timeout t h s -> In TimeUp h -> ended s = None ->
  (exists s', step falsy timeout s (Ends TimedOut) s') /\
  (forall l s', step falsy timeout s l s' -> ended s' <> None \/ exists s2, step falsy timeout s' (Ends TimedOut) s2).
Proof.
  intros H Ht He. apply inv_run in H as (_ & _ & _ & _ & _ & _ & I6 & _). apply I6 in Ht. split; [eexists; now apply ends_timeout|].
  intros l s' Hs. destruct Hs; cbn; try (left; discriminate); right; eexists; apply ends_timeout; cbn; auto.
Qed.
(** A call that has not ended when [wait_for] times out has been asked to cancel; no other call is. *)
Theorem C57_asked_on_timeout falsy timeout t h s : run falsy timeout t h s ->
  (ended s = Some TimedOut -> call_pending t h -> asked s = true) /\
  (asked s = true -> ended s = Some TimedOut).
Proof.
  intros H. apply inv_run in H as (I1 & _ & _ & _ & _ & _ & _ & _ & _ & _ & _ & I11 & I12 & _). split; [|exact I12].
  intros He Hp. destruct (I11 He) as [_ [Ha|Ha]]; [exact Ha|]. exfalso. destruct (task s) as [o|] eqn:E; [|now apply Ha].
  apply (Hp o). now apply I1.
Qed.
(** When the call has ended, [wait_for] ends - unless the call raised an exception that
    is false as a truth value. *)
Theorem C57_ends_with_the_call_partial falsy timeout t h s o : run falsy timeout t h s -> call_ended t h o ->
  (forall e, o = Exc e -> falsy e = false) -> settled falsy s -> ended s <> None.
Proof.
  intros H Ho Hf Hq He. apply inv_run in H as (I1 & _ & _ & _ & I5 & _). apply I1 in Ho.
  destruct (callback s) eqn:Ec.
  - destruct (Hq OnDone _ (run_on_done falsy false s o Ec Ho)) as [(x & E)|E]; discriminate.
  - destruct (new_fut s) as [o'|] eqn:En.
    + destruct (Hq _ _ (ends_outcome falsy false s o' He En)) as [(x & E)|E]; discriminate.
    + destruct (I5 o Ho eq_refl eq_refl) as (e & -> & Hfe). rewrite (Hf e eq_refl) in Hfe. discriminate.
Qed.

(** ** What goes wrong *)
Module Demo.
  Example answers : exists s, run (fun _ => false) true None [CallEnds (Val 7); OnDone; Ends (Returned 7)] s /\ ended s = Some (Returned 7).
  Proof.
    eexists. split.
    { eapply (run_step _ _ _ [CallEnds (Val 7); OnDone] _ (Ends (ending_of (Val 7)))).
      - eapply (run_step _ _ _ [CallEnds (Val 7)] _ OnDone).
        + eapply (run_step _ _ _ [] _ (CallEnds (Val 7)) _ (run_start _ _ _)). now apply call_ends.
        + eapply (run_on_done _ _ _ (Val 7)); reflexivity.
      - now apply ends_outcome. }
    reflexivity.
  Qed.
  (** The call never ends: the time-out happens all the same. *)
  Example times_out : exists s, run (fun _ => false) true None [TimeUp; Ends TimedOut] s /\ ended s = Some TimedOut /\ asked s = true.
  Proof.
    eexists. split.
    { eapply (run_step _ _ _ [TimeUp]).
      - eapply (run_step _ _ _ []); [apply run_start|]. now apply time_up.
      - now apply ends_timeout. }
    split; reflexivity.
  Qed.
  Lemma abandoned : exists s, run (fun _ => false) true None [CallerCancelled; Ends RaisedCancelled] s /\ ended s = Some RaisedCancelled /\ asked s = false.
  Proof.
    eexists. split.
    { eapply (run_step _ _ _ [CallerCancelled]).
      - eapply (run_step _ _ _ []); [apply run_start|]. now apply caller_cancelled.
      - now apply ends_cancelled. }
    split; reflexivity.
  Qed.
  Lemma false_error : exists s, run (fun e => e =? 3) false None [CallEnds (Exc 3); OnDone] s /\ s = mkF (Some (Exc 3)) false false None false false None.
  Proof.
    eexists. split.
    { eapply (run_step _ _ _ [CallEnds (Exc 3)]).
      - eapply (run_step _ _ _ [] _ _ _ (run_start _ _ _)). now eapply (call_ends _ _ _ (Exc 3)).
      - eapply (run_on_done _ _ _ (Exc 3)); reflexivity. }
    reflexivity.
  Qed.
End Demo.
(** Cancelling the caller of [wait_for] does not cancel the call, unlike with [asyncio.wait_for]. *)
Theorem C57_cancel_passes_on_refuted :
  ~ (forall falsy timeout t h s, run falsy timeout t h s -> ended s = Some RaisedCancelled -> call_pending t h -> asked s = true).
Proof.
  intros H. destruct Demo.abandoned as (s & Hr & He & Ha). rewrite (H _ _ _ _ _ Hr He) in Ha; [discriminate|].
  intros o [E|[E|[E|[]]]]; discriminate.
Qed.
(** A call that raises an exception which is false hangs its [wait_for] when no time-out is given. *)
Theorem C57_ends_with_the_call_refuted :
  ~ (forall falsy timeout t h s o, run falsy timeout t h s -> call_ended t h o -> settled falsy s -> ended s <> None).
Proof.
  intros H. destruct Demo.false_error as (s & Hr & ->).
  refine (H _ _ _ _ _ (Exc 3) Hr _ _ eq_refl); [right; now left|].
  intros l s' Hs. inversion Hs; subst; cbn in *; try discriminate; now right.
Qed.

Print Assumptions C57_truthful.
Print Assumptions C57_time_up.
Print Assumptions C57_asked_on_timeout.
Print Assumptions C57_ends_with_the_call_partial.
Print Assumptions C57_cancel_passes_on_refuted.
Print Assumptions C57_ends_with_the_call_refuted.
