(** C09, C14 and the server side of C45: one actor pool.

    Reading guide.  A history is a list of [event]s: requests being taken up,
    awaited user coroutines ending in some way, attempts to write an answer ending
    in some way; all interleavings are histories.  [run init evs] is the state
    after it.  Task [k] serves the [k]-th request; [t_result] is what its handler
    produced, [t_sends] how the attempts to answer went; [on_wire s k] are the
    messages written to the channel for it; [log] lists the handler results in
    the order in which they came about. *)
From Coq Require Import List Arith Bool Lia.
From Verif Require Import Base PoolModel PoolProofs PoolRegistry.
Import ListNotations.

(** ** C09 *)

(** What is on the wire for a request: exactly the handler's result under the
    request's id if the first attempt works, one SendMessageFailed error under the
    same id if the first attempt fails and the second works, else nothing. *)
Theorem C09_answer :
  forall (evs : list event) (k : nat) (t : task),
    nth_error (tasks (run init evs)) k = Some t ->
    on_wire (run init evs) k =
      match t_result t, t_sends t with
      | Some b, [SOk] => [(r_id (t_req t), b)]
      | Some _, [SOther; SOk] => [(r_id (t_req t), BErr XSendFailed)]
      | _, _ => []
      end.
Proof.
  intros evs k t N. pose proof (inv_task _ (reach_inv evs) _ _ N) as OK. unfold task_ok in OK.
  destruct (t_phase t) as [u|u| | |b [|]|].
  - destruct OK as [-> [_ [H _]]]. exact H.
  - destruct OK as [-> [_ [H _]]]. exact H.
  - destruct OK as [-> [_ [H _]]]. exact H.
  - destruct OK as [-> [_ [H _]]]. exact H.
  - destruct OK as [-> [-> H]]. exact H.
  - destruct OK as [_ [_ [-> H]]]. destruct (t_result t); exact H.
  - destruct OK as [[-> [_ [_ H]]]|[b [-> [_ H]]]]; [exact H|].
    rewrite H. unfold answers. reflexivity.
Qed.

(** At most one answer per request, and it carries the request's id. *)
Theorem C09_at_most_one_answer :
  forall (evs : list event) (k : nat) (t : task),
    nth_error (tasks (run init evs)) k = Some t ->
    on_wire (run init evs) k = [] \/
    exists b, on_wire (run init evs) k = [(r_id (t_req t), b)].
Proof.
  intros evs k t N. rewrite (C09_answer evs k t N).
  destruct (t_result t); auto. destruct (t_sends t) as [|[| |] [|[| |] [|]]]; eauto.
Qed.

(** A finished request of a known type was answered, unless the connection was
    closed or both attempts to write failed. *)
Theorem C09_finished_is_answered :
  forall (evs : list event) (k : nat) (t : task),
    nth_error (tasks (run init evs)) k = Some t ->
    t_phase t = PEnd -> r_kind (t_req t) <> KOther ->
    (exists b, on_wire (run init evs) k = [(r_id (t_req t), b)]) \/
    In SClosed (t_sends t) \/ t_sends t = [SOther; SOther].
Proof.
  intros evs k t N P K. pose proof (C09_answer evs k t N) as A.
  pose proof (inv_task _ (reach_inv evs) _ _ N) as OK. unfold task_ok in OK. rewrite P in OK.
  destruct OK as [[_ [H _]]|[b [R [S _]]]]; [contradiction|]. rewrite R in A.
  destruct S as [S|[S|[o S]]]; rewrite S in *; eauto.
  - right. left. simpl. auto.
  - destruct o; eauto. right. left. simpl. auto.
Qed.

(** The handler's result is an error exactly when the user's code raised or was
    cancelled; otherwise it is the value.  (Shown for method calls and for
    creation; destruction below.) *)
Theorem C09_result_is_outcome :
  forall (evs : list event) (k : nat) (t : task) (e : ended),
    nth_error (tasks (run init evs)) k = Some t ->
    match t_phase t with PCall | PPost _ | PTell => True | _ => False end ->
    exists t', nth_error (tasks (run init (evs ++ [EResume k e]))) k = Some t' /\
      t_req t' = t_req t /\
      t_result t' = Some (match e with
        | Threw x => BErr (XUser x)
        | WasCancelled => BErr XCancelled
        | Fine v => match t_phase t with
                    | PCall => BRes v | PPost u => BRef u | _ => BNone end
        end).
Proof.
  intros evs k t e N P. rewrite run_app. cbn [run fold_left step]. fold (run init evs). rewrite N.
  assert (L : k < length (tasks (run init evs))) by (apply nth_error_Some; congruence).
  destruct (t_phase t) eqn:Ph; try contradiction; destruct e; simpl;
    rewrite nth_error_lset_eq by auto; eexists; repeat split; reflexivity.
Qed.

(** A finished handler's result is never changed afterwards. *)
Lemma result_stable_step : forall s ev k t b, nth_error (tasks s) k = Some t -> t_result t = Some b ->
  Inv s -> exists t', nth_error (tasks (step s ev)) k = Some t' /\ t_result t' = Some b /\ t_req t' = t_req t.
Proof.
  intros s ev k t b N R I. destruct ev as [r|k0 e|k0 o]; cbn [step].
  - assert (T : forall s1 f, handler_start s r = (s1, f) -> exists t', nth_error (tasks s1) k = Some t' /\ t_result t' = Some b /\ t_req t' = t_req t).
    { intros s1 f E. destruct (handler_start_spec _ _ _ _ E) as [L [_ [_ [_ T]]]].
      destruct (nth_error (tasks s1) k) as [t1|] eqn:N1.
      - destruct (T _ _ N1) as [t0 [c [N0 ->]]]. rewrite N in N0. inversion N0; subst. eexists; eauto.
      - apply nth_error_None in N1. assert (k < length (tasks s)) by (apply nth_error_Some; congruence). lia. }
    destruct (handler_start s r) as [s1 f] eqn:E. destruct (T _ _ eq_refl) as [t' [N' [R' Q']]].
    destruct (r_kind r);
      try (destruct f; cbn [tasks]; exists t'; rewrite nth_error_app1; auto; apply nth_error_Some; congruence).
    cbn [tasks]. exists t. rewrite nth_error_app1; auto. apply nth_error_Some. congruence.
  - destruct (nth_error (tasks s) k0) as [t0|] eqn:N0; [|eauto].
    destruct (Nat.eq_dec k0 k) as [->|Ne].
    + rewrite N in N0. inversion N0; subst t0. pose proof (inv_task _ I _ _ N) as OK. unfold task_ok in OK.
      destruct (t_phase t); try (destruct OK as [OK _]; congruence); eauto.
    + destruct (t_phase t0); eauto; destruct (handler_end s _ e) as [s1 b1] eqn:E;
        destruct (handler_end_spec _ _ _ _ _ E) as [T _]; cbn [tasks]; rewrite T;
        rewrite nth_error_lset_neq by auto; eauto.
  - destruct (nth_error (tasks s) k0) as [t0|] eqn:N0; [|eauto].
    destruct (Nat.eq_dec k0 k) as [->|Ne].
    + rewrite N in N0. inversion N0; subst t0.
      assert (L : k < length (tasks s)) by (apply nth_error_Some; congruence).
      destruct (t_phase t); eauto. destruct o; [| |destruct resend_failure]; cbn [tasks];
        rewrite nth_error_lset_eq by auto; eexists; repeat split; eauto.
    + destruct (t_phase t0); eauto. destruct o; [| |destruct resend_failure]; cbn [tasks];
        rewrite nth_error_lset_neq by auto; eauto.
Qed.

Theorem C09_result_is_final :
  forall (evs later : list event) (k : nat) (t : task) (b : body),
    nth_error (tasks (run init evs)) k = Some t -> t_result t = Some b ->
    exists t', nth_error (tasks (run init (evs ++ later))) k = Some t' /\ t_result t' = Some b.
Proof.
  intros evs later. induction later as [|ev later IH] using rev_ind; intros k t b N R.
  - rewrite app_nil_r. eauto.
  - destruct (IH k t b N R) as [t' [N' R']].
    rewrite app_assoc, run_app. simpl.
    destruct (result_stable_step _ ev _ _ _ N' R' (reach_inv _)) as [t'' [A [B _]]]. eauto.
Qed.

(** Two requests, answered out of order; the second answer fails to be written
    and is replaced by an error. *)
Definition C09_history : list event :=
  [EStart (Req 10 (KCreate 1 true)); EResume 0 (Fine 0); ESend 0 SOk;
   EStart (Req 11 (KSend 1)); EStart (Req 12 (KSend 1));
   EResume 2 (Fine 7); EResume 1 (Threw 3); ESend 2 SOther; ESend 1 SOk; ESend 2 SOk].
Example C09_example :
  wire (run init C09_history) =
    [(0, (10, BRef 1)); (1, (11, BErr (XUser 3))); (2, (12, BErr XSendFailed))].
Proof. reflexivity. Qed.

(** ** C14 *)

(** In every state, creating an actor whose id is registered is refused with
    ActorAlreadyExist, and the registry is unchanged. *)
Theorem C14_create_existing_refused :
  forall (s : pool) (mid u : nat) (ok : bool),
    dmem (actors s) u = true ->
    let s' := step s (EStart (Req mid (KCreate u ok))) in
    actors s' = actors s /\ log s' = log s ++ [(Req mid (KCreate u ok), BErr XExists)].
Proof. intros s mid u ok H. cbn [step r_kind handler_start]. rewrite H. auto. Qed.

(** In every state, destroying, referencing, calling or telling an unknown actor
    is refused with ActorNotExist, and the registry is unchanged. *)
Theorem C14_unknown_actor_refused :
  forall (s : pool) (mid u : nat) (kd : kind),
    dmem (actors s) u = false ->
    kd = KDestroy u \/ kd = KRef u \/ kd = KSend u \/ kd = KTell u ->
    let s' := step s (EStart (Req mid kd)) in
    actors s' = actors s /\ log s' = log s ++ [(Req mid kd, BErr XNotExist)].
Proof.
  intros s mid u kd H K. destruct K as [->|[->|[->| ->]]]; cbn [step r_kind handler_start]; rewrite H; auto.
Qed.

(** The claim at full strength: in any history, whenever no creation or
    destruction of [u] is under way, [has_actor] answers true exactly if [u] was
    created successfully and not destroyed since. *)
Definition C14_claim : Prop :=
  forall evs u mid, busy (run init evs) u = false ->
    log (run init (evs ++ [EStart (Req mid (KHas u))])) =
    log (run init evs) ++ [(Req mid (KHas u), BBool (spec_live (log (run init evs)) u))].

(** Partial: it holds in the histories in which creations and destructions of
    one actor do not overlap and no __post_create__ fails or is cancelled; all other
    interleavings (also of different actors), failing constructors, failing
    __pre_destroy__ and cancellations are included. *)
Theorem C14_registry_partial :
  forall evs u mid, gentle init evs -> busy (run init evs) u = false ->
    log (run init (evs ++ [EStart (Req mid (KHas u))])) =
    log (run init evs) ++ [(Req mid (KHas u), BBool (spec_live (log (run init evs)) u))].
Proof.
  intros evs u mid G B. rewrite run_app. cbn [run fold_left step r_kind handler_start log].
  fold (run init evs).
  pose proof (run_rinv evs init inv_init rinv_init G) as R.
  rewrite (r_live _ R u); auto.
  intros k t N P. pose proof (busy_false _ _ B _ _ N) as C. unfold concerns in C.
  rewrite P, Nat.eqb_refl in C. discriminate.
Qed.

(** The code as it is: after a creation that failed in __post_create__ the
    pool still says that the actor exists (612-634 registers it first). *)
Theorem C14_registry_refuted : ~ C14_claim.
Proof.
  intros H. specialize (H [EStart (Req 1 (KCreate 5 true)); EResume 0 (Threw 9)] 5 2 eq_refl).
  discriminate.
Qed.

(** ... and then it cannot be created again. *)
Theorem C14_failed_creation_blocks_uid :
  log (run init [EStart (Req 1 (KCreate 5 true)); EResume 0 (Threw 9); EStart (Req 2 (KCreate 5 true))])
  = [(Req 1 (KCreate 5 true), BErr (XUser 9)); (Req 2 (KCreate 5 true), BErr XExists)].
Proof. reflexivity. Qed.

(** Overlap alone also breaks it: an actor destroyed while its __post_create__
    still runs is reported as created although it is gone. *)
Theorem C14_overlap_refuted :
  exists evs u, (forall k x, ~ In (EResume k (Threw x)) evs) /\ (forall k, ~ In (EResume k WasCancelled) evs) /\
    busy (run init evs) u = false /\
    spec_live (log (run init evs)) u = true /\ dmem (actors (run init evs)) u = false.
Proof.
  exists [EStart (Req 1 (KCreate 5 true)); EStart (Req 2 (KDestroy 5)); EResume 1 (Fine 0); EResume 0 (Fine 0)], 5.
  repeat split; simpl; intuition discriminate.
Qed.

Definition C14_history : list event :=
  [EStart (Req 1 (KCreate 5 true)); EStart (Req 2 (KCreate 6 true)); EResume 1 (Fine 0); EResume 0 (Fine 0);
   EStart (Req 3 (KSend 5)); EStart (Req 4 (KDestroy 5)); EStart (Req 5 (KCreate 7 false));
   EResume 3 (Threw 1); EStart (Req 6 (KDestroy 6)); EResume 5 (Fine 0)].
Example C14_example :
  gentle init C14_history /\ busy (run init C14_history) 5 = false /\ busy (run init C14_history) 6 = false /\
  spec_live (log (run init C14_history)) 5 = true /\ spec_live (log (run init C14_history)) 6 = false.
Proof. cbn. repeat split; eauto. Qed.

(** ** C45, server side *)

(** A cancel request is answered True and cancels exactly the task that serves
    the named request if that request is under way; otherwise it is answered with
    CannotCancelTask and no task is cancelled.  (Message ids distinct.) *)
Theorem C45_server_cancel :
  forall (evs : list event) (mid target : nat),
    NoDup (map (fun t => r_id (t_req t)) (tasks (run init evs))) ->
    let s := run init evs in
    let s' := run init (evs ++ [EStart (Req mid (KCancel target))]) in
    (exists k t, nth_error (tasks s) k = Some t /\ r_id (t_req t) = target /\ suspended (t_phase t) = true /\
       log s' = log s ++ [(Req mid (KCancel target), BBool true)] /\
       forall k' t', nth_error (tasks s) k' = Some t' ->
         exists t'', nth_error (tasks s') k' = Some t'' /\ t_phase t'' = t_phase t' /\
           t_cancel t'' = (t_cancel t' || (k' =? k)))
    \/
    ((forall k t, nth_error (tasks s) k = Some t -> r_id (t_req t) = target -> suspended (t_phase t) = false) /\
       log s' = log s ++ [(Req mid (KCancel target), BErr XCannotCancel)] /\
       forall k' t', nth_error (tasks s) k' = Some t' -> nth_error (tasks s') k' = Some t').
Proof.
  intros evs mid target ND s s'.
  assert (S' : s' = step s (EStart (Req mid (KCancel target)))) by (unfold s'; rewrite run_app; reflexivity).
  rewrite S'. clear s' S'. cbn [step r_kind handler_start].
  pose proof (reach_pinv evs ND) as P. fold s in P.
  destruct (dget (procs s) target) as [k|] eqn:D.
  - left. destruct (p_sound _ P _ _ D) as [t [N [E S]]]. exists k, t. rewrite N. cbn [log tasks].
    repeat split; auto. intros k' t' N'.
    assert (L : k < length (tasks s)) by (apply nth_error_Some; congruence).
    assert (L' : k' < length (tasks s)) by (apply nth_error_Some; congruence).
    rewrite nth_error_app1 by (rewrite lset_length; auto). rewrite nth_error_lset.
    destruct (Nat.eqb_spec k k').
    + subst k'. rewrite N in N'. inversion N'; subst t'.
      destruct (Nat.ltb_spec k (length (tasks s))); [|lia]. eexists. split; [reflexivity|].
      simpl. rewrite Nat.eqb_refl, orb_true_r. auto.
    + exists t'. split; auto. split; auto. destruct (Nat.eqb_spec k' k); [congruence|]. now rewrite orb_false_r.
  - right. cbn [log tasks]. split; [|split; auto].
    + intros k t N E. destruct (suspended (t_phase t)) eqn:S; auto.
      pose proof (p_complete _ P _ _ N S). congruence.
    + intros k' t' N'. rewrite nth_error_app1; auto. apply nth_error_Some. congruence.
Qed.

Example C45_server_example :
  NoDup (map (fun t => r_id (t_req t)) (tasks (run init C09_history))) /\
  log (run init [EStart (Req 1 (KCreate 5 true)); EStart (Req 2 (KCancel 1)); EResume 0 WasCancelled;
                 EStart (Req 3 (KCancel 1))])
  = [(Req 2 (KCancel 1), BBool true); (Req 1 (KCreate 5 true), BErr XCancelled);
     (Req 3 (KCancel 1), BErr XCannotCancel)].
Proof. split; [repeat constructor; simpl; intuition discriminate|reflexivity]. Qed.

Print Assumptions C09_answer.
Print Assumptions C09_at_most_one_answer.
Print Assumptions C09_finished_is_answered.
Print Assumptions C09_result_is_outcome.
Print Assumptions C09_result_is_final.
Print Assumptions C14_create_existing_refused.
Print Assumptions C14_unknown_actor_refused.
Print Assumptions C14_registry_partial.
Print Assumptions C14_registry_refuted.
Print Assumptions C14_failed_creation_blocks_uid.
Print Assumptions C14_overlap_refuted.
Print Assumptions C45_server_cancel.
