(** * C70: methods that wait for other actors: yield releases the actor, does not deadlock, and gets what it asked for

    Reading guide.  [run none cancelled methods (initial init) es = Some s]: the events [es] (in any order the model allows) lead from
    nothing to [s].  [tasks s]: all calls so far, in the order in which they were made; each with its state ([Done o]: has
    outcome [o]) and the history of what it has read and got.  [hist s]: the segments of methods that ran, in order, on
    all actors.  The specification is in YieldSpec: [follows] (a method is executed as it is written, every yield and
    await getting the outcomes of its own calls), [chain], [layered], [ends].

    The levels of [layered]: a method may await, with its lock held, only actors on lower levels, and yield to actors
    that are not on higher ones.  If nobody awaits other actors, all may be on one level. *)
From Coq Require Import List Arith Bool Lia Permutation.
From Verif Require Import YieldModel YieldSpec YieldProofs.
Import ListNotations.

Section Props.
  Variables M V E St : Type.
  Variable none : V.
  Variable cancelled : E.
  Variable methods : nat -> M -> method M V E St.
  Variable init : nat -> St.
  Notation step := (step M V E St none cancelled methods).
  Notation run := (run M V E St none cancelled methods).
  Notation initial := (initial M V E St init).
  Notation body := (body M V E St methods).
  Notation st := (st M V E St).

  Definition reachable (s : st) : Prop := exists es, run initial es = Some s.
  (** Something happens: not a new call or a cancellation from outside, nor an event that only leaves a mark. *)
  Definition external (e : event M) : bool := match e with Call _ | Cancel _ | LeaveSending _ | Replied _ | Again _ => true | _ => false end.
  Definition happens (s s' : st) : Prop := exists e, external e = false /\ step s e = Some s'.
  Definition unfinished (s : st) : Prop := exists t c ts lg, nth_error (tasks s) t = Some (mkTask c ts lg) /\ forall o, ts <> Done o.

  Lemma reachable_reach : forall s, reachable s -> reach M V E St none cancelled methods init s.
  Proof. intros s (es & Q). eapply run_reach; [constructor|exact Q]. Qed.
  Lemma internal_happens : forall s e s', internal M e -> step s e = Some s' -> happens s s'.
  Proof. intros s e s' I Q. exists e. split; auto. destruct e; auto; destruct I. Qed.

  (** ** Every call ends with what its method, executed as written, gives; except if it was cancelled while it waited for the lock:
      then it ends there, with CancelledError *)
  Theorem C70_executed_as_written : forall s, reachable s ->
    forall t c o lg, nth_error (tasks s) t = Some (mkTask c (Done o) lg) ->
    follows none cancelled (tasks s) (body c) lg (Finished o) \/
    (got (marked s) t = true /\ o = Err cancelled /\ exists p, follows none cancelled (tasks s) (body c) lg (Before p)).
  Proof. intros s R t c o lg Q. apply reachable_reach in R. exact (placed_reach _ _ _ _ _ _ _ _ _ R _ _ _ _ Q). Qed.
  (** Without cancellations *)
  Lemma never_got : forall es, (forall t, ~ In (Cancel t) es) -> forall s, run initial es = Some s -> forall i, asked (marked s) i = false /\ got (marked s) i = false.
  Proof.
    intros es NC. assert (G : forall s s', reach M V E St none cancelled methods init s -> (forall i, asked (marked s) i = false /\ got (marked s) i = false) -> run s es = Some s' ->
      forall i, asked (marked s') i = false /\ got (marked s') i = false).
    { induction es as [|e es IH]; intros s s' R L Q; cbn in Q; [injection Q as <-; exact L|].
      destruct (step s e) as [s1|] eqn:S1; [|discriminate]. eapply (IH ltac:(intros t I; apply (NC t); now right) s1); eauto; [eapply step_reach; eauto|].
      assert (MV : move M V E St none cancelled methods s s1 -> forall i, asked (marked s1) i = false /\ got (marked s1) i = false).
      { intros Mv i. assert (ND : forall t, ~ due M V E St s t) by (intros t [X _]; destruct (L t); congruence).
        destruct Mv; cbn [marked]; try exact (L i); try (match goal with X : due _ _ _ _ s _ |- _ => elim (ND _ X) end).
        destruct stopped; [match goal with X : part _ _ _ _ _ _ _ _ _ _ |- _ => destruct X as [_ X]; elim (ND _ X) end|]. exact (L i). }
      destruct e; try (apply MV; eapply step_move; [exact S1|exact Logic.I]).
      - cbn in S1. injection S1 as <-. exact L.
      - elim (NC t). now left.
      - cbn [YieldModel.step] in S1. destruct (nth_error (tasks s) t) as [[? [] ?]|]; try discriminate. destruct (parent (marked s) t); [|discriminate].
        destruct (L t) as [-> _] in S1. discriminate.
      - intros i. cbn [YieldModel.step] in S1. destruct (nth_error (tasks s) t) as [[? [] ?]|]; try discriminate. destruct (parent (marked s) t) as [p|]; [|discriminate].
        destruct (nth_error (tasks s) p) as [[? [| | | |[|? [|]] ? []|[|? [|]] ? []|] ?]|]; try discriminate;
          (match type of S1 with (if ?b then _ else _) = _ => destruct b; [|discriminate] end); injection S1 as <-; exact (L i).
      - intros i. cbn [YieldModel.step] in S1. destruct (nth_error (tasks s) t) as [[? ts ?]|] eqn:T; try discriminate.
        destruct ts; try discriminate; destruct b; try discriminate; injection S1 as <-; exact (L i). }
    intros s Q. apply (G _ s (r_init _ _ _ _ _ _ _ _)); auto.
  Qed.
  Theorem C70_executed_as_written_uncancelled : forall es s, run initial es = Some s -> (forall t, ~ In (Cancel t) es) ->
    forall t c o lg, nth_error (tasks s) t = Some (mkTask c (Done o) lg) -> follows none cancelled (tasks s) (body c) lg (Finished o).
  Proof.
    intros es s Q NC t c o lg T. destruct (C70_executed_as_written s (ex_intro _ es Q) t c o lg T) as [A|[A _]]; auto.
    destruct (never_got es NC s Q t). congruence.
  Qed.

  (** The states it read are those its segments found. *)
  Theorem C70_reads : forall s, reachable s ->
    forall t c ts lg, nth_error (tasks s) t = Some (mkTask c ts lg) -> read lg = map r_before (filter (fun r => r_task r =? t) (hist s)).
  Proof. intros s R t c ts lg Q. apply reachable_reach, H_reach in R. symmetry. exact (h_log _ _ _ _ _ _ R _ _ _ _ Q). Qed.

  (** The results of one call are given to one waiting method, once. *)
  Theorem C70_own_calls : forall s, reachable s -> NoDup (flat_map (fun x => waited_for (t_log x)) (tasks s)).
  Proof.
    intros s R. apply reachable_reach, everybody_reach in R. destruct R as [R _]. unfold everybody in R. revert R.
    generalize (tasks s). induction l as [|x l IH]; intros N; cbn in *; auto. unfold all_kids in N at 1.
    assert (D : forall i, In i (waited_for (t_log x)) -> In i (flat_map (fun x => waited_for (t_log x)) l) -> False).
    { intros i I1 I2. rewrite <- app_assoc in N. revert I1 N. generalize (waited_for (t_log x)). intros w I1 N.
      assert (I3 : In i (kids M V E St (t_state x) ++ flat_map (all_kids M V E St) l)).
      { apply in_or_app. right. apply in_flat_map in I2. destruct I2 as (y & Iy & I2). apply in_flat_map. exists y. split; auto.
        unfold all_kids. apply in_or_app. auto. }
      clear I2. induction w as [|j w IHw]; [destruct I1|]. inversion N; subst. destruct I1 as [->|I1]; [|auto].
      apply H1. apply in_or_app. auto. }
    apply NoDup_both; auto.
    - clear - N. rewrite <- app_assoc in N. induction (waited_for (t_log x)) as [|j w IHw]; [constructor|]. inversion N; subst.
      constructor; auto. intros I. apply H1. apply in_or_app. auto.
    - apply IH. clear - N. induction (waited_for (t_log x) ++ kids M V E St (t_state x)) as [|j w IHw]; auto. inversion N; auto.
  Qed.

  (** ** Segments are not interrupted: each finds what the one before on its actor left, and after a segment that awaits the next
      one on the actor belongs to the same call. *)
  Theorem C70_one_after_the_other : forall s, reachable s -> forall a, chain (init a) (filter (fun r => r_actor r =? a) (hist s)) (mem s a).
  Proof. intros s R a. apply reachable_reach, H_reach in R. exact (h_chain _ _ _ _ _ _ R a). Qed.
  Theorem C70_await_keeps_the_actor : forall s, reachable s -> forall a l1 r1 r2 l2,
    filter (fun r => r_actor r =? a) (hist s) = l1 ++ r1 :: r2 :: l2 -> r_kept r1 = true -> r_task r2 = r_task r1.
  Proof. intros s R a l1 r1 r2 l2. apply reachable_reach, H_reach in R. exact (h_next _ _ _ _ _ _ R a l1 r1 r2 l2). Qed.

  (** ** A method that yields, or returns calls, does not hold the lock while it waits. *)
  Theorem C70_yield_releases : forall s, reachable s -> forall t c ts lg a, nth_error (tasks s) t = Some (mkTask c ts lg) ->
    (exists is k b, ts = Yielded is k b) \/ (exists is f b, ts = Delegated is f b) -> holder s a <> Some t.
  Proof.
    intros s R t c ts lg a Q W Ho. apply reachable_reach, J_reach in R. apply (j_hold _ _ _ _ _ R) in Ho.
    destruct Ho as (m & ts' & lg' & A & B). rewrite A in Q. injection Q as <- -> ->.
    destruct W as [(is & k & b & ->)|(is & f & b & ->)]; discriminate.
  Qed.

  (** ** No deadlock *)
  Theorem C70_no_deadlock : forall lvl, (forall a m, layered lvl a (body (a, m))) ->
    forall s, reachable s -> unfinished s -> exists s', happens s s'.
  Proof.
    intros lvl L s R (t & c & ts & lg & T & ND). apply reachable_reach in R.
    destruct (progress _ _ _ _ _ _ _ _ lvl L s R _ _ t c ts lg eq_refl eq_refl T ND) as (e & s' & I & Q).
    exists s'. eapply internal_happens; eauto.
  Qed.

  Lemma yields_layered : forall (p : prog M V E St) a, never_awaits p -> layered (fun _ => 0) a p.
  Proof.
    fix IH 1. intros [u next u' next'] a H. cbn in *. intros s. specialize (H s).
    destruct H as [H H']. split.
    - destruct (next s) as [v| |e|cs k|c k|cs f]; cbn in *; try exact I; [|destruct H|auto]. split; [auto|]. intros r. apply IH. apply H.
    - destruct (next' s) as [v| |e|cs k|c k|cs f]; cbn in *; try exact I; [|destruct H'|auto]. split; [auto|]. intros r. apply IH. apply H'.
  Qed.
  Theorem C70_yields_never_deadlock : (forall a m, never_awaits (body (a, m))) ->
    forall s, reachable s -> unfinished s -> exists s', happens s s'.
  Proof. intros N. apply (C70_no_deadlock (fun _ => 0)). intros a m. apply yields_layered. auto. Qed.

  (** If moreover no tree of calls is infinite: however things go on, all calls get their outcome (unless
      somebody outside calls or cancels again and again). *)
  Theorem C70_all_calls_end : forall lvl, (forall a m, layered lvl a (body (a, m))) -> (forall c, ends methods c) ->
    forall s, reachable s -> Acc (fun s2 s1 => happens s1 s2) s /\ ((forall s', ~ happens s s') -> ~ unfinished s).
  Proof.
    intros lvl L EN s R. split.
    - apply reachable_reach in R. pose proof (finite _ _ _ _ _ _ _ _ EN s R) as A. clear R L lvl. induction A as [s A IH].
      constructor. intros s' (e & NC & Q). apply IH. eapply step_move; eauto. destruct e; cbn; auto; discriminate.
    - intros St' U. destruct (C70_no_deadlock lvl L s R U) as (s' & Q). exact (St' _ Q).
  Qed.
End Props.

(** ** Examples *)
Module Demo.
  (** Actor 0 has a method 0 that adds 1, yields to actor 1 and adds the result; method 1 returns its number.
      Actor 1 has a method 0 that yields to both methods 1 of actor 0: a cycle 0 -> 1 -> 0 through yields. *)
  (** Code that lets CancelledError (99) through and does nothing before *)
  Definition seg (u : nat -> nat) (f : nat -> act nat nat nat nat) : prog nat nat nat nat := Seg u f (fun s => s) (fun _ => Raise 99).
  Definition ret (v : nat) : prog nat nat nat nat := seg (fun s => s) (fun _ => Return v).
  Definition methods (a m : nat) : method nat nat nat nat :=
    match a, m with
    | 0, 0 => Gen (seg (fun s => s + 1) (fun _ => Yield [(1, 0)]
                (fun r => match r with inl [v] => seg (fun s => s + v) (fun s => Return (s + v)) | _ => ret 0 end)))
    | 0, _ => Plain (seg (fun s => s) (fun s => Return s))
    | 1, 0 => Gen (seg (fun s => s) (fun _ => Yield [(0, 1); (0, 2); (2, 0)]
                (fun r => match r with inl vs => ret (list_sum vs) | inr e => ret (100 + e) end)))
    | 2, _ => Plain (seg (fun s => s) (fun _ => Raise 7))
    | _, _ => Plain (ret 9)
    end.
  Definition es : list (event nat) :=
    [Call (0, 0); Arrive 0; Grant 0; Run 0; Grant 0; Run 0;
     Arrive 1; Grant 1; Run 1; Grant 1; Run 1;
     Arrive 4; Arrive 3; Arrive 2; Grant 0; Run 3; Grant 0; Grant 2; Run 4; Run 2; Resume 1; Grant 1; Run 1; Resume 0; Grant 0; Run 0].
  Definition final := run nat nat nat nat 0 99 methods (initial nat nat nat nat (fun _ => 0)) es.
  (** The exception of the third call arrives at the yield of actor 1, which returns 107; actor 0 returns 1 + 107. *)
  Example ends_well : option_map (fun s => (map t_state (tasks s), mem s 0)) final =
    Some ([Done (Ok 108); Done (Ok 107); Done (Ok 1); Done (Ok 1); Done (Err 7)], 108).
  Proof. reflexivity. Qed.
  Example meets : (forall a m, never_awaits (body _ _ _ _ methods (a, m))) /\ (forall c, ends methods c).
  Proof.
    assert (RT : forall v, ends_prog methods (ret v)) by (intros; constructor; intros; constructor).
    assert (E0 : forall m, ends methods (0, S m)) by (intros m; constructor; cbn; constructor; intros; constructor).
    assert (E2 : forall m, ends methods (2, m)) by (intros m; constructor; cbn; constructor; intros; constructor).
    assert (E1 : ends methods (1, 0)).
    { constructor. cbn. constructor; [|intros; constructor]. intros s. constructor; [intros c [<-|[<-|[<-|[]]]]; auto|]. intros [vs|e]; auto. }
    split.
    - intros [|[|[|a]]] [|m]; cbn; auto.
      + intros _. split; auto. intros [[|v [|]]|e]; cbn; auto.
      + intros _. split; auto. intros [vs|e]; cbn; auto.
    - intros [[|[|[|a]]] [|m]]; auto; try (constructor; cbn; constructor; intros; constructor; fail).
      constructor. cbn. constructor; [|intros; constructor]. intros s. constructor; [intros c [<-|[]]; auto|]. intros [[|v [|]]|e]; auto.
      constructor; intros; constructor.
  Qed.

  (** Waiting with the lock: actor 0 awaits actor 1, whose method yields to actor 0.  Nothing can happen any more. *)
  Definition bad (a m : nat) : method nat nat nat nat :=
    match a, m with
    | 0, 0 => Plain (seg (fun s => s) (fun _ => Await (1, 0) (fun _ => ret 1)))
    | 1, 0 => Gen (seg (fun s => s) (fun _ => Yield [(0, 1)] (fun _ => ret 2)))
    | _, _ => Plain (ret 9)
    end.
  Definition stuck_run := run nat nat nat nat 0 99 bad (initial nat nat nat nat (fun _ => 0))
    [Call (0, 0); Arrive 0; Grant 0; Run 0; Arrive 1; Grant 1; Run 1; Grant 1; Run 1; Arrive 2].
  Example await_can_deadlock : exists s, stuck_run = Some s /\ unfinished _ _ _ _ s /\ forall s', ~ happens _ _ _ _ 0 99 bad s s'.
  Proof.
    destruct stuck_run as [s|] eqn:Q; vm_compute in Q; [|discriminate]. injection Q as <-.
    eexists. split; [reflexivity|]. split.
    - exists 0. do 3 eexists. split; [reflexivity|]. intros; discriminate.
    - intros s' (e & NC & Q). destruct e as [c|t|a|t|t|t|t|t|t|t]; try discriminate NC.
      + destruct t as [|[|[|[|t]]]]; discriminate.
      + destruct a as [|[|a]]; discriminate.
      + destruct t as [|[|[|[|t]]]]; discriminate.
      + destruct t as [|[|[|[|t]]]]; discriminate.
      + destruct t as [|[|[|[|t]]]]; discriminate.
  Qed.

  (** A generator method is overtaken by a call that arrived after it. *)
  Definition two (a m : nat) : method nat nat nat nat := match m with 0 => Gen (ret 0) | _ => Plain (ret 1) end.
  Definition overtaken := run nat nat nat nat 0 99 two (initial nat nat nat nat (fun _ => 0))
    [Call (0, 0); Call (0, 1); Arrive 0; Arrive 1; Grant 0; Run 0; Grant 0; Run 1].
  Example overtaken_result : option_map (fun s => (map r_task (hist s), map t_state (tasks s))) overtaken = Some ([1], [Queued (Go (ret 0)); Done (Ok 1)]).
  Proof. reflexivity. Qed.
End Demo.

(** ** Calls that arrived first start first (C11, C62): not if their method is a generator *)
Definition arrives_before {M} (i j : nat) (es : list (event M)) : Prop :=
  exists a b c, es = a ++ Arrive i :: b ++ Arrive j :: c.
Definition C62_generators_claim : Prop := forall methods es s,
  run nat nat nat nat 0 99 methods (initial nat nat nat nat (fun _ => 0)) es = Some s ->
  forall i j ti tj, nth_error (tasks s) i = Some ti -> nth_error (tasks s) j = Some tj -> fst (t_call ti) = fst (t_call tj) ->
  arrives_before i j es -> (exists r, In r (hist s) /\ r_task r = j) -> exists r, In r (hist s) /\ r_task r = i.
Theorem C62_generators_refuted : ~ C62_generators_claim.
Proof.
  intros C. destruct Demo.overtaken as [s|] eqn:Q; [|vm_compute in Q; discriminate].
  pose proof Q as Q1. vm_compute in Q1. injection Q1 as Q1.
  assert (W : exists r, In r (hist s) /\ r_task r = 0).
  { apply (C _ _ _ Q 0 1 (mkTask (0, 0) (Queued (Go (Demo.ret 0))) []) (mkTask (0, 1) (Done (Ok 1)) [Ran 0])).
    - rewrite <- Q1. reflexivity.
    - rewrite <- Q1. reflexivity.
    - reflexivity.
    - exists [Call (0, 0); Call (0, 1)], [], [Grant 0; Run 0; Grant 0; Run 1]. reflexivity.
    - rewrite <- Q1. eexists. split; [left; reflexivity|reflexivity]. }
  rewrite <- Q1 in W. destruct W as (r & [<-|[]] & W). discriminate.
Qed.

Print Assumptions C70_executed_as_written.
Print Assumptions C70_executed_as_written_uncancelled.
Print Assumptions C70_reads.
Print Assumptions C70_own_calls.
Print Assumptions C70_one_after_the_other.
Print Assumptions C70_await_keeps_the_actor.
Print Assumptions C70_yield_releases.
Print Assumptions C70_no_deadlock.
Print Assumptions C70_yields_never_deadlock.
Print Assumptions C70_all_calls_end.
Print Assumptions C62_generators_refuted.
