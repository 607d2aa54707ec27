(** C45, client side: cancelling the waiter of a call. *)
From Coq Require Import List Bool Arith Lia.
From Verif Require Import WaitModel.
Import ListNotations.

(** Number of times the waiter was cancelled before it ended. *)
Definition cancels (evs : list event) : nat := length (filter (fun e => match e with Cancel => true | _ => false end) evs).

Record Inv (a m : nat) (evs : list event) (w : waiter) : Prop := {
  i_sent : w_sent w = match w_phase w with
                      | Shielded => []
                      | Cancelling | Waiting => [(a, m)]
                      | Ended _ => w_sent w
                      end;
  i_sent1 : w_sent w = [] \/ w_sent w = [(a, m)];
  i_shield : w_phase w = Shielded -> (w_cancel w = true <-> 0 < cancels evs);
  i_never : cancels evs = 0 -> w_cancel w = false /\ w_sent w = [] /\
     match w_phase w with
     | Shielded => True
     | Ended f => exists r, w_future w = Some r /\ f = final_of r
     | _ => False
     end;
  i_waiting : w_phase w = Waiting -> w_answer w = Some ATrue;
  i_once : cancels evs = 1 -> w_sent w = [(a, m)] ->
     (w_phase w <> Shielded) /\ w_cancel w = false /\
     match w_phase w with
     | Ended f =>
         match w_answer w with
         | None => False
         | Some ACannotCancel => f = FCancelled
         | Some (AFailed e) => f = FExc e
         | Some ATrue => exists r, w_future w = Some r /\ f = final_of r
         end
     | _ => True
     end
}.

Lemma cancels_snoc : forall evs e, cancels (evs ++ [e]) =
  cancels evs + match e with Cancel => 1 | _ => 0 end.
Proof. intros. unfold cancels. rewrite filter_app, app_length. destruct e; simpl; lia. Qed.

Lemma reach_inv : forall a m evs, Inv a m evs (run a m init evs).
Proof.
  intros a m evs. induction evs as [|ev evs IH] using rev_ind.
  - constructor; simpl; auto; try discriminate. 
    unfold cancels; simpl; split; [discriminate|lia].
  - unfold run in *. rewrite fold_left_app. simpl.
    set (w := fold_left (step a m) evs init) in *. destruct w as [p f an c st].
    destruct IH as [I1 I2 I3 I4 I5 I6]. simpl in *.
    destruct ev as [r| |an'|]; simpl.
    + (* FutureDone *)
      assert (E : cancels (evs ++ [FutureDone r]) = cancels evs) by (rewrite cancels_snoc; lia).
      destruct f as [r0|]; constructor; simpl; rewrite ?E; auto.
      * intros H. destruct (I4 H) as [A [B C]]. repeat split; auto. destruct p; auto.
        destruct C as [r1 [C _]]. discriminate.
      * intros H H1. destruct (I6 H H1) as [A [B C]]. repeat split; auto. destruct p; auto.
        destruct an as [[| |e]|]; auto. destruct C as [r1 [C _]]. discriminate.
    + (* Cancel *)
      assert (E : cancels (evs ++ [Cancel]) = S (cancels evs)) by (rewrite cancels_snoc; lia).
      destruct p; constructor; simpl; rewrite ?E; auto; try discriminate; try (intros _; split; intros; [lia|reflexivity]);
        try (intros H; lia).
      * intros H H1. exfalso. congruence.
      * intros H H1. exfalso. assert (Z : cancels evs = 0) by lia. destruct (I4 Z) as [_ [B _]]. congruence.
    + assert (E : cancels (evs ++ [Answered an']) = cancels evs) by (rewrite cancels_snoc; lia).
      destruct p; try (constructor; simpl; rewrite ?E; auto; fail).
      destruct an; constructor; simpl; rewrite ?E; auto; try discriminate.
    + assert (E : cancels (evs ++ [Run]) = cancels evs) by (rewrite cancels_snoc; lia).
      destruct p as [| | |fin].
      * (* Shielded *)
        destruct c.
        -- assert (P : 0 < cancels evs) by (apply I3; auto).
           constructor; simpl; rewrite ?E, ?I1; auto; try discriminate; try (intros; lia).
           intros. split; [discriminate|auto].
        -- assert (Z : cancels evs = 0).
           { destruct (cancels evs) eqn:Q; auto. exfalso. assert (false = true) by (apply I3; auto; lia). discriminate. }
           destruct f as [r|]; constructor; simpl; rewrite ?E, ?I1; auto; try discriminate; try (intros; lia).
           ++ intros _. repeat split; eauto.
      * (* Cancelling *)
        assert (NZ : cancels evs <> 0) by (intros Z; destruct (I4 Z) as [_ [_ []]]).
        destruct c.
        -- constructor; simpl; rewrite ?E; auto; try discriminate; try (intros; lia).
           intros H H1. destruct (I6 H H1) as [_ [B _]]. discriminate.
        -- destruct an as [[| |e]|]; [destruct f as [r|]| | |];
             constructor; simpl; rewrite ?E; auto; try discriminate; try (intros; lia);
             try (intros H H1; repeat split; auto; try discriminate; eauto; fail).
      * (* Waiting *)
        assert (NZ : cancels evs <> 0) by (intros Z; destruct (I4 Z) as [_ [_ []]]).
        destruct c.
        -- constructor; simpl; rewrite ?E; auto; try discriminate; try (intros; lia).
           intros H H1. destruct (I6 H H1) as [_ [B _]]. discriminate.
        -- destruct f as [r|]; constructor; simpl; rewrite ?E; auto; try discriminate; try (intros; lia).
           intros H H1. repeat split; auto; try discriminate. rewrite (I5 eq_refl). eauto.
      * constructor; simpl; rewrite ?E; auto.
Qed.

(** A waiter that was never cancelled ends with what the call produced, and no
    cancel request is sent. *)
Theorem C45_not_cancelled :
  forall (address mid : nat) (evs : list event) (f : final),
    ~ In Cancel evs -> w_phase (run address mid init evs) = Ended f ->
    w_sent (run address mid init evs) = [] /\
    exists r, w_future (run address mid init evs) = Some r /\ f = final_of r.
Proof.
  intros a m evs f NC E. pose proof (reach_inv a m evs) as I.
  assert (Z : cancels evs = 0).
  { unfold cancels. clear - NC. induction evs as [|e evs IH]; auto. simpl.
    destruct e; simpl in *; try (apply IH; tauto). exfalso. auto. }
  destruct (i_never _ _ _ _ I Z) as [_ [B C]]. rewrite E in C. auto.
Qed.

(** At most one cancel request is sent, to the call's destination and with the
    call's id. *)
Theorem C45_one_cancel_request :
  forall (address mid : nat) (evs : list event),
    w_sent (run address mid init evs) = [] \/ w_sent (run address mid init evs) = [(address, mid)].
Proof. intros. apply (i_sent1 _ _ _ _ (reach_inv address mid evs)). Qed.

(** If the waiter is cancelled while it waits for the reply, the cancel request
    is sent as soon as it runs. *)
Theorem C45_cancel_is_sent :
  forall (address mid : nat) (evs : list event),
    w_phase (run address mid init evs) = Shielded ->
    In Cancel evs ->
    w_sent (run address mid init (evs ++ [Run])) = [(address, mid)].
Proof.
  intros a m evs S C. pose proof (reach_inv a m evs) as I.
  assert (P : 0 < cancels evs).
  { unfold cancels. apply in_split in C. destruct C as [l1 [l2 ->]]. rewrite filter_app, app_length. simpl. lia. }
  pose proof (proj2 (i_shield _ _ _ _ I S) P) as Hc. pose proof (i_sent _ _ _ _ I) as Hs. rewrite S in Hs.
  unfold run in *. rewrite fold_left_app. simpl. rewrite S, Hc, Hs. reflexivity.
Qed.

(** A waiter cancelled once ends as the call ends if the destination could cancel
    the call, with CancelledError if it could not (the call was unknown or over),
    and with the error of the cancel request if that failed. *)
Theorem C45_cancelled_once :
  forall (address mid : nat) (evs : list event) (f : final),
    cancels evs = 1 -> w_sent (run address mid init evs) = [(address, mid)] ->
    w_phase (run address mid init evs) = Ended f ->
    match w_answer (run address mid init evs) with
    | Some ATrue => exists r, w_future (run address mid init evs) = Some r /\ f = final_of r
    | Some ACannotCancel => f = FCancelled
    | Some (AFailed e) => f = FExc e
    | None => False
    end.
Proof.
  intros a m evs f C S E. pose proof (reach_inv a m evs) as I.
  destruct (i_once _ _ _ _ I C S) as [_ [_ H]]. rewrite E in H. exact H.
Qed.

Example C45_client_example :
  let evs := [Cancel; Run; Answered ATrue; Run; FutureDone (RMsg 3); Run] in
  cancels evs = 1 /\ w_sent (run 1 2 init evs) = [(1, 2)] /\ w_phase (run 1 2 init evs) = Ended (FMsg 3).
Proof. repeat split. Qed.
(** The race: the reply arrived, but the waiter is cancelled before it runs; the
    result is dropped. *)
Example C45_client_race :
  let evs := [FutureDone (RMsg 3); Cancel; Run; Answered ACannotCancel; Run] in
  w_phase (run 1 2 init evs) = Ended FCancelled.
Proof. reflexivity. Qed.

Print Assumptions C45_not_cancelled.
Print Assumptions C45_one_cancel_request.
Print Assumptions C45_cancel_is_sent.
Print Assumptions C45_cancelled_once.
