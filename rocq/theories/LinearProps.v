(** * C65: a call on an actor takes effect at most once, and calls look as if they were made one after the other

    Reading guide.  [run … tr s]: any number of processes, callers, proxies and
    connections around one actor; [tr] is what happened so far, in order.
    [Invoke id m]: somebody calls (or tells) method [m]; [Return id (Answer r)]:
    that caller gets the method's result [r] (an exception raised by the method
    is a result, too); [Return id NoAnswer]: it gets an error from elsewhere, or
    it was a [tell].  [Begin], [Done id r], [Aborted]: the method starts, has
    returned [r], was stopped.  [Trouble]: at this moment a process or
    connection was lost, a task was cancelled, a message was damaged or a
    request could not be handed on.  [Recreated]: after the actor's process had
    died it was restarted and the actor created again; a new life begins, in
    the state [initial].
    What the methods do is arbitrary: [start m] is the coroutine of a call,
    [resume k a] runs it up to its next await, in state [a] of the actor.
    Connection [c] goes from process [src c] to process [dst c]; the actor is
    in [home]; a process that receives a call for an actor elsewhere hands it on
    through a connection of its own.
    [one_by_one], [executes], [stops_midway] are in LinearSpec. *)
From Coq Require Import List Arith Bool Lia.
From Verif Require Import LinearSpec LinearModel LinearProofs.
Import ListNotations.

(** ** Specification *)
Section C65.
  Variables St M K R : Type.
  Variable start : M -> K.
  Variable resume : K -> St -> St * (K + R).
  Variable initial : St.
  Variables src dst : nat -> nat.
  Variable home : nat.
  Notation event := (event M R).
  Notation run := (run St M K R start resume initial src dst home).
  Notation step := (step St M K R start resume initial src dst home).

  (** Call [a] had returned its result before call [b] was made. *)
  Definition earlier (tr : list event) (a b : nat) : Prop :=
    exists t1 r t2 m, tr = t1 ++ Return a (Answer r) :: t2 /\ In (Invoke b m) t2.

  (** The method returns after finitely many steps. *)
  Inductive returns : K -> St -> Prop :=
  | returns_now : forall k a a' r, resume k a = (a', inr r) -> returns k a
  | returns_later : forall k a a' k', resume k a = (a', inl k') -> returns k' a' -> returns k a.

  (** Every way from a process leads to the actor's, without circles. *)
  Definition routed : Prop :=
    (exists distance : nat -> nat, forall c, src c <> home -> distance (dst c) < distance (src c)) /\
    (forall n, n <> home -> exists c, src c = n).

  (** Only new calls, troubles or callers that stop waiting could change anything. *)
  Definition nothing_left_to_do (s : st St M K R) : Prop := forall out s', step s out s' ->
    In Trouble out \/ (exists id m, In (Invoke id m) out) \/ (exists id, In (Return id NoAnswer) out).

  (** ** Theorems *)

  (** At any moment of any execution - whatever was lost, cancelled, damaged or
      restarted - the calls of each life of the actor have one order, each at
      most once, such that: making them one after the other, from the initial
      state, explains all results, and for the present life the present state;
      a call is executed in one life only; every call that returned a result is
      in the order with that result; whoever is in it was called; and a call
      that was made after another one had returned its result comes later. *)
  Theorem C65_calls_one_after_the_other : forall tr s, run tr s ->
    exists (past : list (list event * list (nat * option R))) (life : list event) (order : list (nat * option R)),
      tr = flat_map (fun p => fst p ++ [Recreated]) past ++ life /\
      (forall p, In p past -> ~ In Recreated (fst p) /\
         exists last_state, one_by_one St M K R start resume (fun id m => In (Invoke id m) tr) (snd p) initial last_state) /\
      ~ In Recreated life /\
      one_by_one St M K R start resume (fun id m => In (Invoke id m) tr) order initial (actor St M K R s) /\
      (forall p id, In p (past ++ [(life, order)]) -> In id (map fst (snd p)) <-> In (Begin id) (fst p)) /\
      (forall p id r, In p (past ++ [(life, order)]) -> In (id, Some r) (snd p) <-> In (Done id r) (fst p)) /\
      let all := concat (map snd past) ++ order in
      NoDup (map fst all) /\
      (forall id r, In (Return id (Answer r)) tr -> In (id, Some r) all) /\
      (forall id, In id (map fst all) -> exists m, In (Invoke id m) tr) /\
      (forall a b, earlier tr a b -> In b (map fst all) -> stands_before (map fst all) a b).
  Proof.
    intros tr s H. destruct (order_exists _ _ _ _ _ _ _ _ _ _ _ _ H) as (olds & life & l & E & Q & (L1 & L2 & L3) & B).
    cbn [fst snd] in *.
    assert (Eb : begun M R tr = map fst (concat (map snd olds) ++ l)).
    { rewrite E, begun_app, map_app, B. f_equal. apply joined_begun. intros x X. apply Q, X. }
    exists olds, life, l. split; [exact E|]. split; [intros p X; destruct (Q p X) as [_ [a (A & C & _)]]; eauto|].
    split; [exact L1|]. split; [exact L2|]. split; [|split].
    - intros p id X. apply in_app_iff in X. rewrite <- In_begun. destruct X as [X|[<-|[]]].
      + destruct (Q p X) as [-> _]. tauto.
      + cbn [fst snd]. rewrite B. tauto.
    - intros p id r X. apply in_app_iff in X. destruct X as [X|[<-|[]]]; [|apply L3].
      destruct (Q p X) as [_ [a (_ & _ & D)]]. apply D.
    - cbn zeta. rewrite <- Eb. split; [eapply begun_once; eauto|]. split; [|split].
      + intros id r X.
        assert (D : In (Done id r) tr).
        { apply in_split in X. destruct X as (t1 & t2 & X). rewrite X. apply in_or_app. left. eapply answer_done; eauto. }
        rewrite E in D. apply in_app_iff in D. apply in_or_app. destruct D as [D|D]; [left|right; now apply L3].
        eapply joined_done; [|exact D]. intros x Y. destruct (Q x Y) as [_ [a (_ & _ & F)]]. apply F.
      + intros id X. apply In_begun in X. apply in_split in X. destruct X as (t1 & t2 & X).
        destruct (begin_invoked _ _ _ _ _ _ _ _ _ _ _ _ H _ _ _ X) as [m Y]. exists m. rewrite X. apply in_or_app. auto.
      + intros a b (t1 & r & t2 & m & E' & X) Y. eapply real_time; eauto. apply In_invoked. eauto.
  Qed.

  (** An actor whose process never had to be restarted has one life. *)
  Corollary C65_one_life : forall tr s, run tr s -> ~ In Recreated tr ->
    exists order : list (nat * option R),
      one_by_one St M K R start resume (fun id m => In (Invoke id m) tr) order initial (actor St M K R s) /\
      NoDup (map fst order) /\
      (forall id r, In (Return id (Answer r)) tr -> In (id, Some r) order) /\
      (forall id, In id (map fst order) -> exists m, In (Invoke id m) tr) /\
      (forall a b, earlier tr a b -> In b (map fst order) -> stands_before (map fst order) a b).
  Proof.
    intros tr s H N. destruct (C65_calls_one_after_the_other tr s H) as (past & life & order & E & _ & _ & O & _ & _ & A).
    destruct past as [|p past]; [exists order; cbn [map concat app] in A; tauto|].
    elim N. rewrite E. cbn [flat_map]. apply in_or_app. left. apply in_or_app. left. apply in_or_app. right. now left.
  Qed.

  (** A method starts at most once per call, after the call was made, and a
      caller is given the result of that one execution, after it was complete. *)
  Theorem C65_at_most_once : forall tr s, run tr s ->
    (forall t1 id t2, tr = t1 ++ Begin id :: t2 -> (exists m, In (Invoke id m) t1) /\ ~ In (Begin id) t1 /\ ~ In (Begin id) t2) /\
    (forall t1 id r t2, tr = t1 ++ Done id r :: t2 -> In (Begin id) t1) /\
    (forall t1 id r t2, tr = t1 ++ Return id (Answer r) :: t2 -> In (Done id r) t1).
  Proof.
    intros tr s H. split; [|split].
    - intros t1 id t2 E. split; [eapply begin_invoked; eauto|].
      pose proof (begun_once _ _ _ _ _ _ _ _ _ _ _ _ H) as N. rewrite E, begun_app in N.
      apply NoDup_remove_2 in N. split; intros X; apply N, in_or_app; [left|right]; now apply In_begun.
    - intros. eapply done_begun; eauto.
    - intros. eapply answer_done; eauto.
  Qed.

  (** Two results for the same call are the same result: the execution ends once. *)
  Theorem C65_one_result : forall tr s, run tr s -> forall id r r',
    In (Return id (Answer r)) tr -> In (Done id r') tr -> r = r'.
  Proof.
    intros tr s H id r r' A D. destruct (C65_calls_one_after_the_other tr s H) as (past & life & order & E & _ & _ & _ & _ & F & N & X & _).
    apply X in A.
    assert (D' : In (id, Some r') (concat (map snd past) ++ order)).
    { rewrite E in D. apply in_app_iff in D. apply in_or_app. destruct D as [D|D].
      - left. apply in_flat_map in D. destruct D as (p & P & D). apply in_app_iff in D. destruct D as [D|[D|[]]]; [|discriminate].
        apply in_concat. exists (snd p). split; [now apply in_map|]. apply F; [apply in_or_app; auto|exact D].
      - right. apply (F (life, order)); [apply in_or_app; right; now left|exact D]. }
    revert N A D'. generalize (concat (map snd past) ++ order). clear. intros l N X D.
    induction l as [|[i x] l IH]; [contradiction|]. inversion N as [|? ? N1 N2]; subst.
    destruct X as [X|X], D as [D|D].
    - congruence.
    - injection X as -> ->. elim N1. now apply (in_map fst) in D.
    - injection D as -> ->. elim N1. now apply (in_map fst) in X.
    - auto.
  Qed.

  (** A caller is told at most one thing, and only after it called. *)
  Theorem C65_one_return : forall tr s, run tr s -> forall t1 id o t2, tr = t1 ++ Return id o :: t2 ->
    (exists m, In (Invoke id m) t1) /\ (forall o', ~ In (Return id o') t1) /\ (forall o', ~ In (Return id o') t2).
  Proof.
    intros tr s H t1 id o t2 E. split; [eapply return_invoked; eauto|].
    destruct (returned_once _ _ _ _ _ _ _ _ _ _ _ _ H) as [N _]. rewrite E, returned_app in N.
    apply NoDup_remove_2 in N. split; intros o' X; apply N, in_or_app; [left|right]; apply In_returned; eauto.
  Qed.

  (** If nothing goes wrong, then as soon as there is nothing left to do every
      call and every tell was executed completely and has returned. *)
  Theorem C65_nothing_is_forgotten : routed -> forall tr s, run tr s -> ~ In Trouble tr -> nothing_left_to_do s ->
    forall id m, In (Invoke id m) tr ->
      (exists r, In (Done id r) tr /\ (In (Return id (Answer r)) tr \/ In (Return id NoAnswer) tr)).
  Proof.
    intros [[rank Hr] Hc] tr s H NT NL id m X.
    destruct (all_answered _ _ _ _ _ _ _ _ _ _ rank Hr Hc tr s H NT NL id m X) as [[r D] [o Y]].
    exists r. split; [exact D|]. destruct o as [r'|]; [left|auto].
    assert (r' = r) by (eapply C65_one_result; eauto). now subst.
  Qed.

  (** And it is always possible to get there: whatever calls are under way, they
      can all run to their ends, without help from outside - if the methods
      themselves end. *)
  Theorem C65_no_deadlock : routed -> (forall m a, returns (start m) a) -> forall tr s, run tr s -> ~ In Trouble tr ->
    exists more s', run (tr ++ more) s' /\
      (forall id m, ~ In (Invoke id m) more) /\ ~ In Trouble more /\
      forall id m, In (Invoke id m) tr -> ~ In (Return id NoAnswer) tr ->
        exists r, In (Done id r) (tr ++ more) /\ In (Return id (Answer r)) (tr ++ more).
  Proof.
    intros Rt Te tr s H NT. destruct Rt as [[rank Hr] Hc] eqn:Ert.
    assert (T : forall m a, halts St K R resume (start m) a).
    { intros m a. specialize (Te m a). induction Te; [eapply halts_now; eauto|eapply halts_later; eauto]. }
    destruct (can_finish _ _ _ _ _ _ _ _ _ _ rank Hr Hc T tr s H NT) as (more & s' & R1 & Q1 & Rest).
    exists more, s'. split; [exact R1|]. split; [intros id m X; exact (Q1 _ X)|]. split; [intros X; exact (Q1 _ X)|].
    intros id m X NN.
    assert (NT' : ~ In Trouble (tr ++ more)).
    { intros Y. apply in_app_iff in Y. destruct Y as [Y|Y]; [auto|exact (Q1 _ Y)]. }
    destruct (C65_nothing_is_forgotten Rt (tr ++ more) s' R1 NT' Rest id m) as (r & D & [Y|Y]).
    - apply in_or_app. auto.
    - eauto.
    - exfalso. apply in_app_iff in Y. destruct Y as [Y|Y]; [auto|exact (Q1 _ Y)].
  Qed.
  (** When a connection is lost, every caller that waits on it is told at once,
      every proxy that waits on it tells the one it works for, and those who wait
      on other connections go on waiting. *)
  Theorem C65_lost_connection_reported : forall s out s' c,
    step s out s' -> In c (closed St M K R s') -> ~ In c (closed St M K R s) ->
    (forall id, In (c, id, User) (pending St M K R s) -> In (Return id NoAnswer) out) /\
    (forall id c0, In (c, id, Forward c0) (pending St M K R s) -> ~ In c0 (closed St M K R s) ->
       In (c0, id, None) (replies St M K R s')) /\
    (forall c1 id o, In (c1, id, o) (pending St M K R s) -> c1 <> c -> In (c1, id, o) (pending St M K R s')) /\
    (forall id o, ~ In (c, id, o) (pending St M K R s')) /\
    (forall id, In (Return id NoAnswer) out -> In (c, id, User) (pending St M K R s)) /\
    (forall id r, ~ In (Return id (Answer r)) out).
  Proof.
    intros s out s' c H X N. destruct H; try contradiction.
    cbn [closed] in X. destruct X as [->|X]; [|contradiction].
    cbn [pending replies]. repeat apply conj.
    - intros id P. right. apply in_flat_map. exists (c, id, User). split; [|now left].
      apply filter_In. split; [exact P|]. unfold on_conn. cbn [fst]. apply Nat.eqb_refl.
    - intros id c0 P O. apply in_or_app. right. apply in_flat_map. exists (c, id, Forward c0). split.
      + apply filter_In. split; [exact P|]. unfold on_conn. cbn [fst]. apply Nat.eqb_refl.
      + cbn [fst snd passed]. unfold reply_on. replace (is_closed St M K R s c0) with false; [now left|].
        symmetry. unfold is_closed. apply Bool.not_true_iff_false. intros Y. apply existsb_exists in Y.
        destruct Y as (x & Y & Z). apply Nat.eqb_eq in Z. now subst.
    - intros c1 id o P D. apply filter_In. split; [exact P|]. unfold on_conn. cbn [fst].
      apply Nat.eqb_neq in D. now rewrite D.
    - intros id o P. apply filter_In in P. destruct P as [_ P]. unfold on_conn in P. cbn [fst] in P.
      now rewrite Nat.eqb_refl in P.
    - intros id [P|P]; [discriminate|]. apply in_flat_map in P. destruct P as ([[c1 i] o] & P & Q).
      apply filter_In in P. destruct P as [P E]. unfold on_conn in E. cbn [fst snd] in *. apply Nat.eqb_eq in E. subst c1.
      destruct o; cbn [woken] in Q; try contradiction; destruct Q as [Q|[]]. injection Q as ->. exact P.
    - intros id r [P|P]; [discriminate|]. apply in_flat_map in P. destruct P as ([[c1 i] o] & P & Q).
      destruct o; cbn [woken fst snd] in Q; try contradiction; destruct Q as [Q|[]]. discriminate.
  Qed.
End C65.

(** ** Examples *)
Module Demo.
  (** A counter: [add n] reads the value, awaits something, writes it back and
      returns the new value. *)
  Definition start (n : nat) : nat * option nat := (n, None).
  Definition resume (k : nat * option nat) (a : nat) : nat * ((nat * option nat) + nat) :=
    match k with (n, None) => (a, inl (n, Some a)) | (n, Some v) => (n + v, inr (n + v)) end.
  (** Process 0 has the actor, process 1 is a proxy, process 2 calls. *)
  Definition src (c : nat) : nat := match c with 0 => 1 | 1 => 2 | _ => c end.
  Definition dst (c : nat) : nat := match c with 0 => 0 | 1 => 1 | _ => 0 end.
  Notation run := (run nat nat (nat * option nat) nat start resume 10 src dst 0).

  Example routed_demo : routed src dst 0.
  Proof.
    split.
    - exists (fun n => n). intros [|[|[|c]]] H; cbn [src dst] in *; lia.
    - intros n H. destruct n as [|[|[|n]]]; [lia|exists 0; reflexivity|exists 1; reflexivity|exists (S (S (S n))); reflexivity].
  Qed.

  Example ends : forall m a, returns nat (nat * option nat) nat resume (start m) a.
  Proof. intros m a. eapply returns_later; [reflexivity|]. eapply returns_now. reflexivity. Qed.

  (** Two overlapping calls, through the proxy and from within: both count. *)
  Example two_calls : exists s, run
    [Invoke 7 5; Invoke 8 1; Begin 8; Done 8 11; Return 8 (Answer 11); Begin 7; Done 7 16; Return 7 (Answer 16)] s /\
    nothing_left_to_do _ _ _ _ start resume 10 src dst 0 s.
  Proof.
    pose proof (run_init nat nat (nat * option nat) nat start resume 10 src dst 0) as H. unfold start_state in H.
    eapply run_step in H; [|eapply (s_invoke _ _ _ _ _ _ _ _ _ _ _ 7 5 1); cbn; [tauto|reflexivity|tauto]]. cbn in H.
    eapply run_step in H; [|eapply (s_receive _ _ _ _ _ _ _ _ _ _ _ [] 1 7 5 []); cbn; [reflexivity|tauto]]. cbn in H.
    eapply run_step in H; [|eapply (s_invoke_local _ _ _ _ _ _ _ _ _ _ _ 8 1); cbn; [intuition lia|tauto]]. cbn in H.
    eapply run_step in H; [|eapply (s_forward _ _ _ _ _ _ _ _ _ _ _ [] 1 7 5 [] 0); cbn; [reflexivity|lia|reflexivity|reflexivity]]. cbn in H.
    eapply run_step in H; [|eapply s_acquire; reflexivity]. cbn in H.
    eapply run_step in H; [|eapply (s_receive _ _ _ _ _ _ _ _ _ _ _ [] 0 7 5 []); cbn; [reflexivity|tauto]]. cbn in H.
    eapply run_step in H; [|eapply (s_enter _ _ _ _ _ _ _ _ _ _ _ [] 0 7 5 []); cbn; reflexivity]. cbn in H.
    eapply run_step in H; [|eapply s_work; reflexivity]. cbn in H.
    eapply run_step in H; [|eapply s_done; reflexivity]. cbn in H.
    eapply run_step in H; [|eapply s_acquire; reflexivity]. cbn in H.
    eapply run_step in H; [|eapply s_work; reflexivity]. cbn in H.
    eapply run_step in H; [|eapply s_done; reflexivity]. cbn in H.
    eapply run_step in H; [|eapply (s_answer _ _ _ _ _ _ _ _ _ _ _ [] 0 7 (Some 16) [] [(1, 7, User)] (Forward 1) []); cbn; reflexivity]. cbn in H.
    eapply run_step in H; [|eapply (s_answer _ _ _ _ _ _ _ _ _ _ _ [] 1 7 (Some 16) [] [] User []); cbn; reflexivity]. cbn in H.
    eexists. split; [exact H|]. eapply empty_rest. repeat split.
  Qed.

  (** An error says nothing about the execution: here the connection between
      caller and proxy breaks; the caller gets an error, and afterwards the
      method runs.  Calling again after such an error may count twice. *)
  Example error_then_executed : exists s, run
    [Invoke 7 5; Trouble; Return 7 NoAnswer; Begin 7; Done 7 15] s /\ actor _ _ _ _ s = 15.
  Proof.
    pose proof (run_init nat nat (nat * option nat) nat start resume 10 src dst 0) as H. unfold start_state in H.
    eapply run_step in H; [|eapply (s_invoke _ _ _ _ _ _ _ _ _ _ _ 7 5 1); cbn; [tauto|reflexivity|tauto]]. cbn in H.
    eapply run_step in H; [|eapply (s_receive _ _ _ _ _ _ _ _ _ _ _ [] 1 7 5 []); cbn; [reflexivity|tauto]]. cbn in H.
    eapply run_step in H; [|eapply (s_lose _ _ _ _ _ _ _ _ _ _ _ 1)]. cbn in H.
    eapply run_step in H; [|eapply (s_forward _ _ _ _ _ _ _ _ _ _ _ [] 1 7 5 [] 0); cbn; [reflexivity|lia|reflexivity|reflexivity]]. cbn in H.
    eapply run_step in H; [|eapply (s_receive _ _ _ _ _ _ _ _ _ _ _ [] 0 7 5 []); cbn; [reflexivity|tauto]]. cbn in H.
    eapply run_step in H; [|eapply (s_enter _ _ _ _ _ _ _ _ _ _ _ [] 0 7 5 []); cbn; reflexivity]. cbn in H.
    eapply run_step in H; [|eapply s_acquire; reflexivity]. cbn in H.
    eapply run_step in H; [|eapply s_work; reflexivity]. cbn in H.
    eapply run_step in H; [|eapply s_done; reflexivity]. cbn in H.
    eexists. split; [exact H|reflexivity].
  Qed.

  (** A cancelled call may leave half of its work behind and is then in the
      order as stopped midway: here nothing was written yet. *)
  Example cancelled : exists s, run
    [Invoke 3 5; Begin 3; Aborted 3; Trouble; Return 3 NoAnswer; Invoke 4 1; Begin 4; Done 4 11; Return 4 (Answer 11)] s.
  Proof.
    pose proof (run_init nat nat (nat * option nat) nat start resume 10 src dst 0) as H. unfold start_state in H.
    eapply run_step in H; [|eapply (s_invoke_local _ _ _ _ _ _ _ _ _ _ _ 3 5); cbn; tauto]. cbn in H.
    eapply run_step in H; [|eapply s_acquire; reflexivity]. cbn in H.
    eapply run_step in H; [|eapply s_work; reflexivity]. cbn in H.
    eapply run_step in H; [|eapply s_abort; reflexivity]. cbn in H.
    eapply run_step in H; [|eapply (s_invoke_local _ _ _ _ _ _ _ _ _ _ _ 4 1); cbn; [intuition lia|tauto]]. cbn in H.
    eapply run_step in H; [|eapply s_acquire; reflexivity]. cbn in H.
    eapply run_step in H; [|eapply s_work; reflexivity]. cbn in H.
    eapply run_step in H; [|eapply s_done; reflexivity]. cbn in H.
    eexists. exact H.
  Qed.

  (** The process dies in the middle of a call and is restarted: the new actor
      starts from 10 again, the call is not repeated, its caller gets an error;
      the result of an earlier call stands although its effect is gone. *)
  Example restarted : exists s, run
    [Invoke 3 5; Begin 3; Done 3 15; Return 3 (Answer 15); Invoke 4 1; Begin 4; Trouble; Aborted 4; Trouble; Recreated;
     Trouble; Return 4 NoAnswer; Invoke 5 7; Begin 5; Done 5 17; Return 5 (Answer 17)] s /\ actor _ _ _ _ s = 17.
  Proof.
    pose proof (run_init nat nat (nat * option nat) nat start resume 10 src dst 0) as H. unfold start_state in H.
    eapply run_step in H; [|eapply (s_invoke_local _ _ _ _ _ _ _ _ _ _ _ 3 5); cbn; tauto]. cbn in H.
    eapply run_step in H; [|eapply s_acquire; reflexivity]. cbn in H.
    eapply run_step in H; [|eapply s_work; reflexivity]. cbn in H.
    eapply run_step in H; [|eapply s_done; reflexivity]. cbn in H.
    eapply run_step in H; [|eapply (s_invoke _ _ _ _ _ _ _ _ _ _ _ 4 1 0); cbn; [intuition lia|reflexivity|tauto]]. cbn in H.
    eapply run_step in H; [|eapply (s_receive _ _ _ _ _ _ _ _ _ _ _ [] 0 4 1 []); cbn; [reflexivity|tauto]]. cbn in H.
    eapply run_step in H; [|eapply (s_enter _ _ _ _ _ _ _ _ _ _ _ [] 0 4 1 []); cbn; reflexivity]. cbn in H.
    eapply run_step in H; [|eapply s_acquire; reflexivity]. cbn in H.
    eapply run_step in H; [|eapply s_crash_home]. cbn in H.
    eapply run_step in H; [|eapply s_recreate; cbn; tauto]. cbn in H.
    eapply run_step in H; [|eapply (s_lose _ _ _ _ _ _ _ _ _ _ _ 0)]. cbn in H.
    eapply run_step in H; [|eapply (s_invoke_local _ _ _ _ _ _ _ _ _ _ _ 5 7); cbn; [intuition lia|tauto]]. cbn in H.
    eapply run_step in H; [|eapply s_acquire; reflexivity]. cbn in H.
    eapply run_step in H; [|eapply s_work; reflexivity]. cbn in H.
    eapply run_step in H; [|eapply s_done; reflexivity]. cbn in H.
    eexists. split; [exact H|reflexivity].
  Qed.
  (** The connection between proxy and actor is lost: the proxy passes the error on. *)
  Example lost_behind_the_proxy : exists s, run [Invoke 7 5; Trouble; Return 7 NoAnswer] s.
  Proof.
    pose proof (run_init nat nat (nat * option nat) nat start resume 10 src dst 0) as H. unfold start_state in H.
    eapply run_step in H; [|eapply (s_invoke _ _ _ _ _ _ _ _ _ _ _ 7 5 1); cbn; [tauto|reflexivity|tauto]]. cbn in H.
    eapply run_step in H; [|eapply (s_receive _ _ _ _ _ _ _ _ _ _ _ [] 1 7 5 []); cbn; [reflexivity|tauto]]. cbn in H.
    eapply run_step in H; [|eapply (s_forward _ _ _ _ _ _ _ _ _ _ _ [] 1 7 5 [] 0); cbn; [reflexivity|lia|reflexivity|reflexivity]]. cbn in H.
    eapply run_step in H; [|eapply (s_lose _ _ _ _ _ _ _ _ _ _ _ 0)]. cbn in H.
    eapply run_step in H; [|eapply (s_answer _ _ _ _ _ _ _ _ _ _ _ [] 1 7 None [] [] User []); cbn; reflexivity]. cbn in H.
    eexists. exact H.
  Qed.
End Demo.

Print Assumptions C65_calls_one_after_the_other.
Print Assumptions C65_one_life.
Print Assumptions C65_at_most_once.
Print Assumptions C65_one_result.
Print Assumptions C65_one_return.
Print Assumptions C65_nothing_is_forgotten.
Print Assumptions C65_no_deadlock.
Print Assumptions C65_lost_connection_reported.
