(** C07, C08: replies on one client connection.

    Reading guide.  A history is a list of [event]s: calls being made, replies
    arriving, cancellations, failures of the connection.  [run init evs] is the
    state of the caller after the history; its [n]-th future is what the [n]-th
    call waits for, [f_id] the message id of that call. *)
From Coq Require Import List Arith Bool Lia.
From Verif Require Import Base CallerModel CallerProofs.
Import ListNotations.

(** ** C07 *)

(** A call that completed with a reply holds the reply of its own message id,
    and this reply did arrive while the call was waiting.  Any history, also
    with reused ids, unknown ids, cancellations and broken connections. *)
Theorem C07_own_reply :
  forall (evs : list event) (n : nat) (f : fut) (m p : nat),
    nth_error (futures (run init evs)) n = Some f -> f_state f = Result m p ->
    m = f_id f /\
    exists before after,
      evs = before ++ EReply m p :: after /\
      nth_error (futures (run init before)) n = Some (Fut m Pending).
Proof. exact own_reply. Qed.

(** A completed call never changes again. *)
Theorem C07_completed_is_final :
  forall (evs later : list event) (n : nat) (f : fut),
    nth_error (futures (run init evs)) n = Some f -> done f = true ->
    nth_error (futures (run init (evs ++ later))) n = Some f.
Proof. intros. rewrite run_app. apply done_stable; auto using run_inv, inv_init. Qed.

(** One reply completes at most one call. *)
Theorem C07_reply_completes_at_most_one_call :
  forall (evs : list event) (m p k1 k2 : nat) (f1 f2 : fut),
    nth_error (futures (run init evs)) k1 = Some f1 -> done f1 = false ->
    nth_error (futures (run init evs)) k2 = Some f2 -> done f2 = false ->
    nth_error (futures (run init (evs ++ [EReply m p]))) k1 = Some (Fut m (Result m p)) ->
    nth_error (futures (run init (evs ++ [EReply m p]))) k2 = Some (Fut m (Result m p)) ->
    k1 = k2.
Proof.
  intros evs m p k1 k2 f1 f2 N1 D1 N2 D2 R1 R2. rewrite run_app in R1, R2. simpl in R1, R2.
  assert (P : forall f, done f = false -> f_state f = Pending)
    by (intros f; unfold done; destruct (f_state f); congruence).
  eapply (reply_completes_one (run init evs)); eauto using run_inv, inv_init.
Qed.

(** A reply that arrives for a waiting call while the connection is served does
    complete that call (message ids being distinct, as [new_message_id] makes them). *)
Theorem C07_reply_is_delivered :
  forall (evs : list event) (m p n : nat),
    NoDup (map f_id (futures (run init evs))) ->
    listening (run init evs) = true ->
    nth_error (futures (run init evs)) n = Some (Fut m Pending) ->
    nth_error (futures (run init (evs ++ [EReply m p]))) n = Some (Fut m (Result m p)).
Proof.
  intros. rewrite run_app. simpl. apply reply_delivered; auto using run_inv, inv_init.
Qed.

Definition C07_example_history : list event :=
  [ECall 7; ECall 8; ECall 9; EReply 9 90; ECancel 0; EReply 7 70; EReply 8 80; ELost].
Example C07_example :
  map f_state (futures (run init C07_example_history)) = [Cancelled; Result 8 80; Result 9 90].
Proof. reflexivity. Qed.
Example C07_example_delivered :
  NoDup (map f_id (futures (run init [ECall 7; ECall 8; ECall 9]))) /\
  listening (run init [ECall 7; ECall 8; ECall 9]) = true /\
  nth_error (futures (run init [ECall 7; ECall 8; ECall 9])) 1 = Some (Fut 8 Pending).
Proof. repeat split; repeat constructor; simpl; intuition discriminate. Qed.

(** ** C08 *)

(** The events at which a connection is known to be gone: the receive loop saw
    the end of the stream, or the loop noticed that the client was closed. *)
Definition connection_gone (evs : list event) : Prop :=
  exists before, (evs = before ++ [ELost] \/
                  (evs = before ++ [ELoopEnd] /\ closed (run init before) = true)).

(** The full claim, for reference; refuted below. *)
Definition C08_claim : Prop :=
  forall evs, NoDup (map f_id (futures (run init evs))) -> connection_gone evs ->
    forall later n f,
      nth_error (futures (run init (evs ++ later))) n = Some f -> done f = true.

(** Partial: it holds for histories in which no waiting call was cancelled
    and in which undeserializable replies belong to outstanding requests. *)
Theorem C08_connection_loss_fails_all_partial :
  forall evs, NoDup (map f_id (futures (run init evs))) -> calm init evs ->
    connection_gone evs ->
    forall n f, nth_error (futures (run init evs)) n = Some f -> done f = true.
Proof.
  assert (R : forall before ev, run init (before ++ [ev]) = step (run init before) ev)
    by (intros; now rewrite run_app).
  intros evs ND Q [before [E|[E C]]]; subst evs; rewrite R in *; apply calm_snoc in Q; destruct Q as [Q _];
    assert (I : Inv (run init before)) by (apply run_inv, inv_init);
    pose proof (run_ids_nodup_prefix before init _ inv_init ND) as ND';
    destruct (calm_state before Q ND') as [NC DA];
    destruct (listening (run init before)) eqn:L.
  - intros; eapply lost_all_done; eauto.
  - intros n f N. cbn [step] in N. rewrite L in N. exact (DA eq_refl n f N).
  - intros; eapply loop_end_all_done; eauto.
  - intros n f N. cbn [step] in N. rewrite L in N. exact (DA eq_refl n f N).
Qed.

(** In addition the failure is the error the caller should see: the calls waiting
    at the loss fail with ServerClosed. *)
Theorem C08_failure_is_server_closed_partial :
  forall evs, NoDup (map f_id (futures (run init evs))) -> calm init evs ->
    listening (run init evs) = true ->
    forall n m, nth_error (futures (run init evs)) n = Some (Fut m Pending) ->
      nth_error (futures (run init (evs ++ [ELost]))) n = Some (Fut m (Failed ExServerClosed)).
Proof.
  intros evs ND Q L n m N. rewrite run_app. simpl. 
  assert (I : Inv (run init evs)) by (apply run_inv, inv_init).
  destruct (calm_state evs Q ND) as [NC _].
  cbn [step]. rewrite L. cbn [futures].
  destruct (on_exception_nth (run init evs) ExServerClosed n _ N) as [H|[_ H]]; auto.
  exfalso.
  assert (A : all_done (step (run init evs) ELost)) by (apply lost_all_done; auto).
  specialize (A n (Fut m Pending)). cbn [step] in A. rewrite L in A. cbn [futures] in A.
  specialize (A H). discriminate.
Qed.

(** The code as it is: a call waiting at the loss of the connection waits
    forever when an earlier waiter was cancelled ([set_exception] on a done
    future raises inside the loop, core.py 119-120). *)
Theorem C08_connection_loss_refuted : ~ C08_claim.
Proof.
  intros H.
  specialize (H [ECall 1; ECall 2; ECancel 0; ELost]).
  assert (ND : NoDup (map f_id (futures (run init [ECall 1; ECall 2; ECancel 0; ELost]))))
    by (repeat constructor; simpl; intuition discriminate).
  assert (G : connection_gone [ECall 1; ECall 2; ECancel 0; ELost])
    by (exists [ECall 1; ECall 2; ECancel 0]; left; reflexivity).
  specialize (H ND G [] 1 (Fut 2 Pending) eq_refl). discriminate.
Qed.

(** ... and forever indeed: whatever happens later, unless it is cancelled too. *)
Theorem C08_waits_forever :
  forall later, ~ In (ECancel 1) later ->
    nth_error (futures (run init ([ECall 1; ECall 2; ECancel 0; ELost] ++ later))) 1 = Some (Fut 2 Pending).
Proof. intros later NI. rewrite run_app. apply dead_stuck; auto. Qed.

(** A second way, without any cancellation: after some receive error failed all
    calls, a reply to one of them that cannot be deserialized ends the listener
    (KeyError at core.py 114), and calls made since wait forever. *)
Theorem C08_waits_forever_late_reply :
  forall later, ~ In (ECancel 1) later ->
    nth_error (futures (run init ([ECall 1; ERecvError; ECall 2; EDeserFailed 1] ++ later))) 1
      = Some (Fut 2 Pending).
Proof. intros later NI. rewrite run_app. apply dead_stuck; auto. Qed.

Example C08_partial_example :
  calm init [ECall 1; ECall 2; EReply 2 5; ECall 3; EDeserFailed 3; ELost] /\
  connection_gone [ECall 1; ECall 2; EReply 2 5; ECall 3; EDeserFailed 3; ELost] /\
  map f_state (futures (run init [ECall 1; ECall 2; EReply 2 5; ECall 3; EDeserFailed 3; ELost]))
  = [Failed ExServerClosed; Result 2 5; Failed ExDeserialize].
Proof.
  repeat split; simpl; auto; try discriminate.
  exists [ECall 1; ECall 2; EReply 2 5; ECall 3; EDeserFailed 3]. left. reflexivity.
Qed.

Print Assumptions C07_own_reply.
Print Assumptions C07_completed_is_final.
Print Assumptions C07_reply_completes_at_most_one_call.
Print Assumptions C07_reply_is_delivered.
Print Assumptions C08_connection_loss_fails_all_partial.
Print Assumptions C08_failure_is_server_closed_partial.
Print Assumptions C08_connection_loss_refuted.
Print Assumptions C08_waits_forever.
Print Assumptions C08_waits_forever_late_reply.
