(** * C71: cancelling a call cancels the calls it waits for

    Reading guide.  The model is that of C70 (YieldModel): [run none cancelled methods (initial init) es = Some s] is any execution;
    [tasks s] all calls so far with their states, [Done o]: ended with outcome [o].  [Cancel t] in [es]: somebody outside asks to cancel the
    call [t]; [Deliver t]: the request to cancel reaches the task that executes the call ([got (marked s) t] afterwards).
    [parent (marked s) i = Some t]: the call [i] was made by the method of the call [t].  Two events are special: [LeaveSending i], the
    task of the caller is cancelled while it still awaits the sending of the request [i]; [Again t], the task is cancelled a second time
    while it waits for the calls it has asked to cancel. *)
From Coq Require Import List Arith Bool Lia Permutation.
From Verif Require Import YieldModel YieldSpec YieldProofs YieldCancelProofs YieldProps.
Import ListNotations.

Section Props.
  Variables M V E St : Type.
  Variable none : V.
  Variable cancelled : E.
  Variable methods : nat -> M -> method M V E St.
  Variable init : nat -> St.
  Notation step := (step M V E St none cancelled methods).
  Notation run := (run M V E St none cancelled methods).
  Notation initial := (initial M V E St init).
  Notation body := (body M V E St methods).
  Notation st := (st M V E St).

  Definition has_ended (s : st) (t : nat) : Prop := exists c o lg, nth_error (tasks s) t = Some (mkTask c (Done o) lg).
  (** The calls a task is waiting for *)
  Inductive waits_for (s : st) (t : nat) : list nat -> Prop :=
  | wf_await : forall c i k b lg, nth_error (tasks s) t = Some (mkTask c (Awaiting i k b) lg) -> waits_for s t [i]
  | wf_yield : forall c is k b lg, nth_error (tasks s) t = Some (mkTask c (Yielded is k b) lg) -> waits_for s t is
  | wf_return : forall c is f b lg, nth_error (tasks s) t = Some (mkTask c (Delegated is f b) lg) -> waits_for s t is.

  (** ** When a call has ended, so have the calls it made (cancelled or not) *)
  Definition no_orphans (s : st) : Prop := forall t i, has_ended s t -> parent (marked s) i = Some t -> has_ended s i.
  Definition leaves (e : event M) : Prop := exists t, e = LeaveSending t.
  Definition again (e : event M) : Prop := exists t, e = Again t.

  Theorem C71_no_orphans_partial : forall es s, run initial es = Some s -> (forall e, In e es -> ~ leaves e /\ ~ again e) -> no_orphans s.
  Proof.
    intros es s Q F t i (c & o & lg & T) P. assert (R : reach M V E St none cancelled methods init s) by (eapply run_reach; [constructor|exact Q]).
    pose proof (K_reach _ _ _ _ _ _ _ _ _ R) as KK. destruct (k_tree _ _ _ _ _ KK _ _ P) as (c1 & ts & lg1 & A & B). rewrite A in T. injection T as -> -> ->.
    cbn [kids] in B. rewrite app_nil_r in B. destruct (k_past _ _ _ _ _ KK _ _ _ _ _ A B) as [L|D]; [|exact D]. exfalso.
    assert (X : left (marked s) i = false).
    { eapply never_left; [constructor| |  |exact Q]; [reflexivity|]. apply Forall_forall. intros e Ie. destruct (F e Ie) as [F1 F2].
      destruct e; cbn; auto; [apply F1|apply F2]; eexists; reflexivity. }
    congruence.
  Qed.

  (** ** A call that is cancelled while it waits asks the calls it waits for to cancel; each of these requests arrives, unless the call has
      ended before or nobody waits for it any more.  (A task that is about to give the lock back, or waits for nothing, is cancelled
      at its next step.) *)
  Definition about_to_go_on (s : st) (i : nat) : Prop := exists c ts lg, nth_error (tasks s) i = Some (mkTask c ts lg) /\
    (ts = Inside Make \/ (exists k b, ts = Yielded [] k b) \/ exists f b, ts = Delegated [] f b).
  Theorem C71_passed_on : forall s s', reachable M V E St none cancelled methods init s -> forall t is, waits_for s t is -> step s (Deliver t) = Some s' ->
    waits_for s' t is /\ forall i, In i is -> asked (marked s') i = true.
  Proof.
    intros s s' R t is W Q. cbn [YieldModel.step] in Q. destruct (asked (marked s) t && negb (got (marked s) t)); [|discriminate].
    destruct W as [[a m] i k b lg T|[a m] is k b lg T|[a m] is f b lg T]; rewrite T in Q.
    - destruct b; [discriminate|]. injection Q as <-. split; [eapply wf_await; cbn [tasks]; eapply put_eq; eauto|]. intros j I. cbn. now apply set_all_in.
    - destruct is as [|i is]; [discriminate|]. destruct b; [discriminate|]. injection Q as <-. split; [eapply wf_yield; cbn [tasks]; eapply put_eq; eauto|].
      intros j I. cbn [marked with_got asked]. now apply set_all_in.
    - destruct is as [|i is]; [discriminate|]. destruct b; [discriminate|]. injection Q as <-. split; [eapply wf_return; cbn [tasks]; eapply put_eq; eauto|].
      intros j I. cbn [marked with_got asked]. now apply set_all_in.
  Qed.
  Theorem C71_arrives : forall s, reachable M V E St none cancelled methods init s -> forall t, asked (marked s) t = true -> t < length (tasks s) ->
    has_ended s t \/ got (marked s) t = true \/ about_to_go_on s t \/ exists s', step s (Deliver t) = Some s'.
  Proof.
    intros s R t A B. apply reachable_reach in R. destruct (got (marked s) t) eqn:G; auto. destruct (nth_error (tasks s) t) as [[c ts lg]|] eqn:T;
      [|apply nth_error_Some in B; congruence].
    destruct (deliverable M V E St ts) eqn:D; [right; right; right; eapply deliver_enabled; eauto|].
    destruct ts as [|d|[|p]|i k b|[|i is] k b|[|i is] f b|o]; try discriminate.
    - right. right. left. exists c, (Inside Make), lg. auto.
    - right. right. left. exists c, (Yielded [] k b), lg. split; eauto 6.
    - right. right. left. exists c, (Delegated [] f b), lg. split; eauto 6.
    - left. exists c, o, lg. auto.
  Qed.

  (** ** A call that is cancelled a second time does not wait any longer; the results that are there are not lost *)
  Theorem C71_second_cancel : forall s s', reachable M V E St none cancelled methods init s -> forall t is, waits_for s t is -> step s (Again t) = Some s' ->
    (exists s2, step s' (Resume t) = Some s2) /\
    forall i, In i is -> (has_ended s i -> left (marked s') i = left (marked s) i) /\ (~ has_ended s i -> left (marked s') i = true).
  Proof.
    intros s s' R t is W Q.
    assert (EN : forall i, ended M V E St (tasks s) i = true <-> has_ended s i).
    { intros i. unfold ended, has_ended. destruct (nth_error (tasks s) i) as [[c ts lg]|]; [|split; [discriminate|intros (c & o & lg & X); discriminate]].
      destruct ts; split; try discriminate; try (intros (c1 & o & lg1 & X); discriminate); eauto. }
    assert (ALL : forall mk b js, left mk = set_all (left (marked s)) (filter (fun i => negb (ended M V E St (tasks s) i)) is) true ->
      (forall j, In j js -> In j is) -> exists os, results M V E St cancelled (mkSt (tasks s) (holder s) (queue s) (mem s) (hist s) mk) b js = Some os /\ length os = length js).
    { intros mk b js L. induction js as [|j js IH]; intros I; [exists []; auto|]. destruct IH as (os & IH & LN); [intros; apply I; now right|].
      cbn [results]. rewrite IH. unfold result_of. cbn [marked tasks]. rewrite L.
      destruct (set_all (left (marked s)) (filter (fun i => negb (ended M V E St (tasks s) i)) is) true j) eqn:SL; [eexists; split; [reflexivity|cbn; now rewrite LN]|].
      destruct (ended M V E St (tasks s) j) eqn:EJ.
      - apply EN in EJ. destruct EJ as (c & o & lg & EJ). rewrite EJ. eexists. split; [reflexivity|cbn; now rewrite LN].
      - exfalso. rewrite set_all_in in SL; [discriminate|]. apply filter_In. split; [apply I; now left|]. now rewrite EJ. }
    assert (LF : forall i, In i is -> (has_ended s i -> set_all (left (marked s)) (filter (fun i => negb (ended M V E St (tasks s) i)) is) true i = left (marked s) i) /\
      (~ has_ended s i -> set_all (left (marked s)) (filter (fun i => negb (ended M V E St (tasks s) i)) is) true i = true)).
    { intros i I. split; intros H.
      - apply set_all_out. intros J. apply filter_In in J. destruct J as [_ J]. apply EN in H. rewrite H in J. discriminate.
      - apply set_all_in. apply filter_In. split; auto. destruct (ended M V E St (tasks s) i) eqn:X; auto. elim H. now apply EN. }
    cbn [YieldModel.step] in Q.
    destruct W as [c i k b lg T|c is k b lg T|c is f b lg T]; rewrite T in Q; destruct b; try discriminate; injection Q as <-; (split; [|exact LF]);
      cbn [YieldModel.step tasks]; rewrite T.
    - match goal with |- context [mkMarks ?a ?b ?c ?d ?e] => destruct (ALL (mkMarks a b c d e) true [i] eq_refl (fun j H => H)) as (os & Q & LN) end. rewrite Q. destruct os as [|o [|]]; try discriminate. eauto.
    - match goal with |- context [mkMarks ?a ?b ?c ?d ?e] => destruct (ALL (mkMarks a b c d e) true is eq_refl (fun j H => H)) as (os & Q & LN) end. rewrite Q. eauto.
    - match goal with |- context [mkMarks ?a ?b ?c ?d ?e] => destruct (ALL (mkMarks a b c d e) true is eq_refl (fun j H => H)) as (os & Q & LN) end. rewrite Q. eauto.
  Qed.

  (** ** A call that is cancelled before it has got the lock does not run (any more) *)
  Theorem C71_cancelled_early : forall s s' t c ts lg, reachable M V E St none cancelled methods init s -> nth_error (tasks s) t = Some (mkTask c ts lg) ->
    ts = Sent \/ (exists d, ts = Queued d) -> step s (Deliver t) = Some s' -> forall es s2, run s' es = Some s2 ->
    nth_error (tasks s2) t = Some (mkTask c (Done (Err cancelled)) lg) /\
    filter (fun r => r_task r =? t) (hist s2) = filter (fun r => r_task r =? t) (hist s).
  Proof.
    intros s s' t c ts lg R T W Q es s2 Q2. apply reachable_reach in R.
    assert (X : nth_error (tasks s') t = Some (mkTask c (Done (Err cancelled)) lg) /\ hist s' = hist s).
    { pose proof Q as Q3. cbn [YieldModel.step] in Q3. destruct (asked (marked s) t && negb (got (marked s) t)); [|discriminate]. rewrite T in Q3.
      destruct c as [a m]. destruct W as [->|[d ->]]; injection Q3 as <-; cbn [tasks hist]; (split; [eapply put_eq; eauto|reflexivity]). }
    destruct X as [X1 X2]. rewrite <- X2. eapply run_hist; [|exact Q2|exact X1]. eapply step_reach; eauto.
  Qed.

  (** ** If the methods let CancelledError through, a call that was cancelled ends with CancelledError *)
  Definition ends_cancelled (s : st) : Prop := forall t c o lg, nth_error (tasks s) t = Some (mkTask c (Done o) lg) -> got (marked s) t = true -> o = Err cancelled.
  Theorem C71_ends_cancelled_partial : (forall a m, lets_through cancelled 1 (body (a, m))) ->
    forall s, reachable M V E St none cancelled methods init s -> ends_cancelled s.
  Proof. intros LT s R t c o lg T G. apply reachable_reach in R. pose proof (D_reach _ _ _ _ _ _ _ _ LT s R _ _ _ _ T) as X. exact (X G). Qed.

  (** ** A method that has started is executed to its end *)
  Definition executed_to_the_end (s : st) (t : nat) : Prop := forall c o lg, nth_error (tasks s) t = Some (mkTask c (Done o) lg) -> lg <> [] ->
    follows none cancelled (tasks s) (body c) lg (Finished o).
  Theorem C71_executed_to_the_end_partial : forall s, reachable M V E St none cancelled methods init s -> forall t,
    (forall c ts lg, nth_error (tasks s) t = Some (mkTask c ts lg) -> never_yields (body c)) -> executed_to_the_end s t.
  Proof.
    intros s R t NY c o lg T L. apply reachable_reach in R. pose proof (queued_quiet _ _ _ _ _ _ _ _ s R _ _ _ _ T (NY _ _ _ T)) as X. cbn in X.
    destruct X as [X|[X _]]; [exact X|contradiction].
  Qed.
End Props.

Module CancelDemo.
  Notation run := (run nat nat nat nat 0 99).
  Notation initial := (initial nat nat nat nat (fun _ => 0)).
  Definition seg := Demo.seg.
  Definition ret := Demo.ret.
  (** What the code between two waits does if it catches everything but CancelledError *)
  Definition careful (r : list nat + nat) : prog nat nat nat nat :=
    match r with inl vs => ret (list_sum vs) | inr e => if e =? 99 then seg (fun s => s) (fun _ => Raise 99) else ret (100 + e) end.
  (** 0: awaits 1 and then adds 1 to its state; 1: a generator that yields to 2; 2: adds 1 to its state *)
  Definition chain3 (a m : nat) : method nat nat nat nat :=
    match a with
    | 0 => Plain (seg (fun s => s) (fun _ => Await (1, 0) (fun o => match o with
             | Ok v => seg (fun s => s + 1) (fun _ => Return v)
             | Err e => seg (fun s => s) (fun _ => Raise e) end)))
    | 1 => Gen (seg (fun s => s) (fun _ => Yield [(2, 0)] careful))
    | _ => Plain (seg (fun s => s + 1) (fun _ => Return 7))
    end.
  Definition to_wait : list (event nat) := [Call (0, 0); Arrive 0; Grant 0; Run 0; Arrive 1; Grant 1; Run 1; Grant 1; Run 1; Arrive 2; Grant 2].
  Definition cascade : list (event nat) :=
    to_wait ++ [Cancel 0; Deliver 0; Deliver 1; Deliver 2; Resume 1; Grant 1; Run 1; Resume 0; Run 0].
  (** The cancellation goes down to the last call and its result comes back. *)
  Example cascade_result : option_map (fun s => (map t_state (tasks s), mem s 2)) (run chain3 initial cascade) =
    Some ([Done (Err 99); Done (Err 99); Done (Err 99)], 0).
  Proof. reflexivity. Qed.
  Example chain3_lets_through : forall a m, lets_through 99 1 (body nat nat nat nat chain3 (a, m)).
  Proof.
    assert (CA : forall r, lets_through 99 1 (careful r)).
    { intros [vs|e]; cbn; auto. destruct (e =? 99); cbn; auto. }
    intros [|[|a]] m; cbn; auto.
    - intros _. split; auto. split; auto. intros [v|e]; cbn; auto.
  Qed.
  Example cascade_meets : (forall e, In e cascade -> ~ leaves nat e /\ ~ again nat e).
  Proof. intros e I. repeat (destruct I as [<-|I]; [split; intros (t & X); discriminate|]). destruct I. Qed.

  (** The caller is cancelled while it sends the request: the call is executed although its caller has ended. *)
  Definition lost_request : list (event nat) :=
    [Call (0, 0); Arrive 0; Grant 0; Run 0; Cancel 0; Deliver 0; LeaveSending 1; Resume 0; Run 0; Arrive 1; Grant 1; Run 1; Grant 1; Run 1; Arrive 2; Grant 2; Run 2].
  Example lost_request_result : option_map (fun s => (map (fun x => match t_state x with Done o => Some o | _ => None end) (tasks s), mem s 2)) (run chain3 initial lost_request) =
    Some ([Some (Err 99); None; Some (Ok 7)], 1).
  Proof. reflexivity. Qed.
  (** It is cancelled a second time while the calls are being cancelled. *)
  Definition twice : list (event nat) := to_wait ++ [Cancel 0; Deliver 0; Again 0; Resume 0; Run 0; Run 2].
  Example twice_result : option_map (fun s => (map (fun x => match t_state x with Done o => Some o | _ => None end) (tasks s), mem s 2)) (run chain3 initial twice) =
    Some ([Some (Err 99); None; Some (Ok 7)], 1).
  Proof. reflexivity. Qed.

  (** 0: yields to 1, which fails, and 2, which works *)
  Definition pair (a m : nat) : method nat nat nat nat :=
    match a with
    | 0 => Gen (seg (fun s => s) (fun _ => Yield [(1, 0); (2, 0)] careful))
    | 1 => Plain (seg (fun s => s) (fun _ => Raise 7))
    | _ => Plain (seg (fun s => s + 1) (fun _ => Return 7))
    end.
  Definition swallowed : list (event nat) :=
    [Call (0, 0); Arrive 0; Grant 0; Run 0; Grant 0; Run 0; Arrive 1; Grant 1; Run 1; Arrive 2; Grant 2; Replied 1;
     Cancel 0; Deliver 0; Deliver 2; Resume 0; Grant 0; Run 0].
  Example swallowed_result : option_map (fun s => (map t_state (tasks s), got (marked s) 0)) (run pair initial swallowed) =
    Some ([Done (Ok 107); Done (Err 7); Done (Err 99)], true).
  Proof. reflexivity. Qed.
  Example pair_lets_through : forall a m, lets_through 99 2 (body nat nat nat nat pair (a, m)).
  Proof.
    assert (CA : forall r, lets_through 99 2 (careful r)).
    { intros [vs|e]; cbn; auto. destruct (e =? 99); cbn; auto. }
    intros [|[|a]] m; cbn; auto 10.
  Qed.

  (** 0: marks itself as busy, yields, and is not busy any more, whatever happens (try: ... finally:) *)
  Definition busy (a m : nat) : method nat nat nat nat :=
    match a with
    | 0 => Gen (seg (fun _ => 1) (fun _ => Yield [(1, 0)] (fun r => Seg (fun _ => 0) (fun _ => match r with inl _ => Return 5 | inr e => Raise e end)
                                                                       (fun _ => 0) (fun _ => Raise 99))))
    | _ => Plain (ret 7)
    end.
  Definition abandoned : list (event nat) :=
    [Call (0, 0); Arrive 0; Grant 0; Run 0; Grant 0; Run 0; Arrive 1; Grant 1; Run 1; Resume 0; Cancel 0; Deliver 0].
  Example abandoned_result : option_map (fun s => (map t_state (tasks s), mem s 0)) (run busy initial abandoned) = Some ([Done (Err 99); Done (Ok 7)], 1).
  Proof. reflexivity. Qed.
End CancelDemo.

(** ** What does not hold *)
Definition C71_no_orphans_claim (allowed : event nat -> Prop) : Prop := forall methods es s,
  run nat nat nat nat 0 99 methods (initial nat nat nat nat (fun _ => 0)) es = Some s -> (forall e, In e es -> allowed e) -> no_orphans nat nat nat nat s.
Theorem C71_no_orphans_sending_refuted : ~ C71_no_orphans_claim (fun e => ~ again nat e).
Proof.
  intros C. destruct (run nat nat nat nat 0 99 CancelDemo.chain3 (initial nat nat nat nat (fun _ => 0)) CancelDemo.lost_request) as [s|] eqn:Q; [|vm_compute in Q; discriminate].
  specialize (C _ _ _ Q). vm_compute in Q. injection Q as <-.
  destruct (C) with (t := 0) (i := 1) as (c & o & lg & X).
  - intros e I. repeat (destruct I as [<-|I]; [intros (t & X); discriminate|]). destruct I.
  - do 3 eexists. reflexivity.
  - reflexivity.
  - discriminate.
Qed.
Theorem C71_no_orphans_twice_refuted : ~ C71_no_orphans_claim (fun e => ~ leaves nat e).
Proof.
  intros C. destruct (run nat nat nat nat 0 99 CancelDemo.chain3 (initial nat nat nat nat (fun _ => 0)) CancelDemo.twice) as [s|] eqn:Q; [|vm_compute in Q; discriminate].
  specialize (C _ _ _ Q). vm_compute in Q. injection Q as <-.
  destruct (C) with (t := 0) (i := 1) as (c & o & lg & X).
  - intros e I. repeat (destruct I as [<-|I]; [intros (t & X); discriminate|]). destruct I.
  - do 3 eexists. reflexivity.
  - reflexivity.
  - discriminate.
Qed.

(** With several calls at a time, the exception of one that failed before replaces CancelledError: a method that handles this exception goes on. *)
Definition C71_ends_cancelled_claim (n : nat) : Prop := forall methods, (forall a m, lets_through 99 n (body nat nat nat nat methods (a, m))) ->
  forall s, reachable nat nat nat nat 0 99 methods (fun _ => 0) s -> ends_cancelled nat nat nat nat 99 s.
Theorem C71_ends_cancelled_refuted : ~ C71_ends_cancelled_claim 2.
Proof.
  intros C. destruct (run nat nat nat nat 0 99 CancelDemo.pair (initial nat nat nat nat (fun _ => 0)) CancelDemo.swallowed) as [s|] eqn:Q; [|vm_compute in Q; discriminate].
  specialize (C _ CancelDemo.pair_lets_through s (ex_intro _ _ Q)). vm_compute in Q. injection Q as <-.
  assert (X : Ok 107 = @Err nat nat 99) by (eapply (C 0); reflexivity). discriminate.
Qed.

(** A generator that is cancelled while it waits for the lock after a yield does not get CancelledError: its code after the yield
    is not executed (by the actor, with its lock; finally blocks may be executed when the generator is collected, without it). *)
Definition C71_executed_to_the_end_claim : Prop := forall methods s,
  reachable nat nat nat nat 0 99 methods (fun _ => 0) s -> forall t, executed_to_the_end nat nat nat nat 0 99 methods s t.
Theorem C71_executed_to_the_end_refuted : ~ C71_executed_to_the_end_claim.
Proof.
  intros C. destruct (run nat nat nat nat 0 99 CancelDemo.busy (initial nat nat nat nat (fun _ => 0)) CancelDemo.abandoned) as [s|] eqn:Q; [|vm_compute in Q; discriminate].
  specialize (C _ s (ex_intro _ _ Q) 0). vm_compute in Q. injection Q as <-.
  assert (X := C (0, 0) (Err 99) [Ran 0; Got [1] (inl [7]) false] eq_refl ltac:(discriminate)). clear C.
  inversion X as [| ? ? ? ? ? ? ? Q1 Q2|? ? ? ? ? ? ? Q1 Q2|? ? ? ? ? ? ? ? Q1 Q2|? ? ? ? ? ? ? ? Q1 Q2|? ? ? ? ? ? ? ? Q1 Q2|log cs f is b vs F W Q1 Q2|log cs f is b e F W Q1 Q2]; subst; try discriminate.
  - change ([Ran 0; Got [1] (inl [7]) false]) with ([Ran 0] ++ [Got [1] (@inl (list nat) nat [7]) false]) in Q1. apply app_inj_tail in Q1. destruct Q1 as [_ Q1]. discriminate.
  - change ([Ran 0; Got [1] (inl [7]) false]) with ([Ran 0] ++ [Got [1] (@inl (list nat) nat [7]) false]) in Q1. apply app_inj_tail in Q1. destruct Q1 as [_ Q1]. discriminate.
  - change ([Ran 0; Got [1] (inl [7]) false]) with ([Ran 0] ++ [Got [1] (@inl (list nat) nat [7]) false]) in Q1. apply app_inj_tail in Q1. destruct Q1 as [_ Q1]. discriminate.
Qed.

Print Assumptions C71_no_orphans_partial.
Print Assumptions C71_passed_on.
Print Assumptions C71_arrives.
Print Assumptions C71_second_cancel.
Print Assumptions C71_cancelled_early.
Print Assumptions C71_ends_cancelled_partial.
Print Assumptions C71_executed_to_the_end_partial.
Print Assumptions C71_no_orphans_sending_refuted.
Print Assumptions C71_no_orphans_twice_refuted.
Print Assumptions C71_ends_cancelled_refuted.
Print Assumptions C71_executed_to_the_end_refuted.
