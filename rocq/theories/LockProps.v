(** C10, C11: calls on one stateful actor.

    Reading guide.  A history is a list of [event]s in the order in which the
    event loop performs them; [run init evs] is the state after it.  [inside] are
    the calls whose lock-protected body is running; [arrivals] and [starts]
    record the calls in the order they asked for the lock and in the order their
    bodies started; [gone] are the calls cancelled while waiting. *)
From Coq Require Import List Arith Bool Lia.
From Verif Require Import LockModel LockProofs.
Import ListNotations.

(** C10: at any time at most one lock-protected body is running. *)
Theorem C10_mutual_exclusion :
  forall (evs : list event) (t1 t2 : nat),
    In t1 (inside (run init evs)) -> In t2 (inside (run init evs)) -> t1 = t2.
Proof.
  intros evs t1 t2 H1 H2. pose proof (i_inside _ (reach_inv evs)) as L.
  destruct (inside (run init evs)) as [|x [|y r]]; [destruct H1| |destruct (locked (run init evs)); discriminate].
  destruct H1 as [<-|[]], H2 as [<-|[]]. reflexivity.
Qed.

(** C10: ... and no call's body is run twice. *)
Theorem C10_body_runs_once :
  forall evs : list event, NoDup (starts (run init evs)).
Proof.
  intros evs. pose proof (reach_inv evs) as I.
  pose proof (NoDup_filter (fun x => negb (mem x (gone (run init evs)))) (i_nodupA _ I)) as N.
  rewrite (i_order _ I) in N. clear - N. induction (starts (run init evs)); [constructor|].
  simpl in N. inversion N; subst. constructor; auto. intros H. apply H1, in_or_app. auto.
Qed.

(** C10: the lock is held exactly while a body runs. *)
Theorem C10_locked_iff_running :
  forall evs : list event, locked (run init evs) = true <-> inside (run init evs) <> [].
Proof.
  intros evs. pose proof (i_inside _ (reach_inv evs)) as L.
  destruct (locked (run init evs)), (inside (run init evs)); simpl in L; split; intros; congruence.
Qed.

(** C10: a [no_lock] method runs from its call to its end, whoever holds the lock ... *)
Theorem C10_no_lock_runs_at_once :
  forall (evs : list event) (t : nat),
    In t (free (run init evs)) <->
    exists before after, evs = before ++ ArriveFree t :: after /\ ~ In (FinishFree t) after.
Proof.
  intros evs t. induction evs as [|e evs IH] using rev_ind.
  - cbn. split; [intros []|]. intros (b & a & E & _). destruct b; discriminate E.
  - assert (SN : forall b a, evs ++ [e] = b ++ ArriveFree t :: a ->
      (a = [] /\ e = ArriveFree t) \/ exists a', a = a' ++ [e] /\ evs = b ++ ArriveFree t :: a').
    { intros b a E. destruct a as [|x a] using rev_ind.
      - left. apply app_inj_tail in E. destruct E; auto.
      - right. exists a. rewrite app_comm_cons, app_assoc in E. apply app_inj_tail in E. destruct E as [E ->]. auto. }
    assert (KEEP : e <> ArriveFree t -> e <> FinishFree t ->
      ((exists b a, evs ++ [e] = b ++ ArriveFree t :: a /\ ~ In (FinishFree t) a) <->
       (exists b a, evs = b ++ ArriveFree t :: a /\ ~ In (FinishFree t) a))).
    { intros N1 N2. split.
      - intros (b & a & E & N). destruct (SN b a E) as [(_ & ->)|(a' & -> & E')]; [congruence|].
        exists b, a'. split; auto. intros H. apply N, in_or_app. auto.
      - intros (b & a & -> & N). exists b, (a ++ [e]). split; [now rewrite <- app_assoc|].
        intros H. apply in_app_or in H. destruct H as [H|[H|[]]]; auto. }
    unfold run in *. rewrite fold_left_app. cbn [fold_left]. set (s := fold_left step evs init) in *.
    assert (SAME : forall u, e <> ArriveFree u -> True) by auto. clear SAME.
    destruct e as [u|u|u|u|u|u]; cbn [step].
    + rewrite KEEP, <- IH by discriminate. destruct (mem u (arrivals s)); [tauto|].
      destruct (negb (locked s) && forallb (fun p => is_cancelled (snd p)) (waiters s)); cbn [free]; tauto.
    + cbn [free]. rewrite in_app_iff. destruct (Nat.eq_dec u t) as [->|N].
      * split; [intros _|cbn; auto]. exists evs, []. split; auto.
      * rewrite KEEP, <- IH by congruence. cbn. intuition.
    + rewrite KEEP, <- IH by discriminate. destruct (lookup (waiters s) u) as [[]|]; cbn [free]; tauto.
    + rewrite KEEP, <- IH by discriminate. destruct (lookup (waiters s) u) as [[]|]; cbn [free]; tauto.
    + rewrite KEEP, <- IH by discriminate. destruct (mem u (inside s)); cbn [free]; tauto.
    + cbn [free]. rewrite filter_In. destruct (Nat.eq_dec u t) as [->|N].
      * rewrite Nat.eqb_refl. split; [intros [_ H]; discriminate|].
        intros (b & a & E & NI). destruct (SN b a E) as [(_ & H)|(a' & -> & _)]; [discriminate|].
        elim NI. apply in_or_app. cbn. auto.
      * rewrite KEEP, <- IH by congruence. destruct (Nat.eqb_spec t u); [congruence|]. cbn. tauto.
Qed.

(** ... and makes no difference to the calls that use the lock: they run, wait and start as if it were not there. *)
Definition of_no_lock (e : event) : bool := match e with ArriveFree _ | FinishFree _ => true | _ => false end.
Theorem C10_no_lock_disturbs_nobody :
  forall evs : list event,
    let s := run init evs in
    let s' := run init (filter (fun e => negb (of_no_lock e)) evs) in
    inside s = inside s' /\ locked s = locked s' /\ waiters s = waiters s' /\
    arrivals s = arrivals s' /\ starts s = starts s' /\ gone s = gone s'.
Proof.
  intros evs. induction evs as [|e evs IH] using rev_ind; [cbn; repeat split|].
  rewrite filter_app. unfold run in *. cbv zeta in *. rewrite !fold_left_app.
  set (s := fold_left step evs init) in *.
  set (s' := fold_left step (filter (fun e => negb (of_no_lock e)) evs) init) in *. clearbody s s'.
  destruct IH as (H1 & H2 & H3 & H4 & H5 & H6).
  destruct e as [u|u|u|u|u|u]; cbn [filter of_no_lock negb fold_left step]; rewrite <- ?H1, <- ?H2, <- ?H3, <- ?H4, <- ?H5, <- ?H6.
  - destruct (mem u (arrivals s)); [repeat split; auto|].
    destruct (negb (locked s) && forallb (fun p => is_cancelled (snd p)) (waiters s)); cbn; repeat split; auto.
  - cbn. auto 10.
  - destruct (lookup (waiters s) u) as [[]|]; cbn; auto 10.
  - destruct (lookup (waiters s) u) as [[]|]; cbn; auto 10.
  - destruct (mem u (inside s)); cbn; auto 10.
  - cbn. auto 10.
Qed.
Example demo_no_lock :
  let s := run init [Arrive 1; ArriveFree 5; Arrive 2; ArriveFree 6; FinishFree 5; Finish 1; Resume 2] in
  inside s = [2] /\ free s = [6].
Proof. split; reflexivity. Qed.

(** C11: calls start in the order in which they arrived; the only ones passed
    over are those cancelled while waiting.  [w] are the calls still waiting. *)
Theorem C11_arrival_order :
  forall evs : list event, exists w : list nat,
    filter (fun t => negb (mem t (gone (run init evs)))) (arrivals (run init evs))
    = starts (run init evs) ++ w
    /\ forall t, In t w -> In t (map fst (waiters (run init evs))).
Proof.
  intros evs. pose proof (reach_inv evs) as I. eexists. split; [apply (i_order _ I)|].
  intros t H. apply in_map_iff in H. destruct H as [p [E H]]. apply filter_In in H.
  apply in_map_iff. exists p. tauto.
Qed.

Lemma split_unique : forall (l1 l2 m1 m2 : list nat) b,
  NoDup (l1 ++ b :: l2) -> l1 ++ b :: l2 = m1 ++ b :: m2 -> l1 = m1.
Proof.
  induction l1 as [|x l1 IH]; intros l2 [|y m1] m2 b N E; simpl in *; auto.
  - inversion E; subst. exfalso. inversion N; subst. apply H1, in_or_app. simpl. auto.
  - inversion E; subst. exfalso. inversion N; subst. apply H1, in_or_app. simpl. auto.
  - inversion E; subst. f_equal. inversion N; subst. eapply IH; eauto.
Qed.

(** C11: no overtaking.  If [a] arrived before [b] and [b]'s body started, then
    [a] started before it, or [a] was cancelled while waiting. *)
Theorem C11_no_overtaking :
  forall (evs : list event) (a b : nat) (l1 l2 l3 : list nat),
    arrivals (run init evs) = l1 ++ a :: l2 ++ b :: l3 ->
    In b (starts (run init evs)) ->
    In a (gone (run init evs)) \/
    exists m1 m2 m3, starts (run init evs) = m1 ++ a :: m2 ++ b :: m3.
Proof.
  intros evs a b l1 l2 l3 A S. pose proof (reach_inv evs) as I.
  destruct (mem a (gone (run init evs))) eqn:Ga; [left; now apply mem_In|right].
  pose proof (NoDup_filter (fun x => negb (mem x (gone (run init evs)))) (i_nodupA _ I)) as N.
  pose proof (i_order _ I) as O. rewrite O in N.
  assert (Gb : mem b (gone (run init evs)) = false).
  { assert (In b (filter (fun x => negb (mem x (gone (run init evs)))) (arrivals (run init evs)))).
    { rewrite O. apply in_or_app. auto. }
    apply filter_In in H. destruct H as [_ H]. now apply negb_true_iff. }
  set (g := fun t => negb (mem t (gone (run init evs)))) in *.
  assert (F : filter g (arrivals (run init evs)) = (filter g l1 ++ a :: filter g l2) ++ b :: filter g l3).
  { rewrite A, filter_app. simpl. unfold g at 2. rewrite Ga. simpl. rewrite filter_app. simpl.
    unfold g at 3. rewrite Gb. simpl. now rewrite <- app_assoc. }
  apply in_split in S. destruct S as [s1 [s2 S]]. rewrite S in *.
  rewrite F in O. rewrite <- (app_assoc s1) in O, N. simpl app in N. symmetry in O.
  change ((b :: s2) ++ map fst (filter live (waiters (run init evs))))
    with (b :: (s2 ++ map fst (filter live (waiters (run init evs))))) in O.
  pose proof (split_unique _ _ _ _ _ N O) as E. exists (filter g l1), (filter g l2), s2.
  rewrite E. rewrite <- app_assoc. reflexivity.
Qed.

(** C11: the lock is never lost.  Whenever nothing is scheduled to run (no
    waiting call has been woken or cancelled) and calls wait, one is running. *)
Theorem C11_lock_never_lost :
  forall evs : list event,
    (forall t st, In (t, st) (waiters (run init evs)) -> st = Wp) ->
    waiters (run init evs) <> [] ->
    exists t, inside (run init evs) = [t].
Proof.
  intros evs Q W. pose proof (reach_inv evs) as I. pose proof (i_inside _ I) as L.
  destruct (locked (run init evs)) eqn:Lk.
  - destruct (inside (run init evs)) as [|x [|y r]]; try discriminate. eauto.
  - exfalso. pose proof (i_head _ I Lk) as H. destruct (waiters (run init evs)) as [|[t st] r]; [congruence|].
    rewrite (Q t st) in H by (left; auto). exact H.
Qed.

(** C11: when no body runs, letting the scheduled tasks run makes the first
    waiting call that was not cancelled start, whatever happened before. *)
Lemma progress : forall n s t r, Inv s -> length (waiters s) <= n -> locked s = false ->
  map fst (filter live (waiters s)) = t :: r ->
  exists rs, incl rs (map fst (waiters s)) /\ inside (run s (map Resume rs)) = [t].
Proof.
  induction n as [|n IH]; intros s t r I Ln Lk W.
  - destruct (waiters s); [discriminate|simpl in Ln; lia].
  - destruct (waiters s) as [|[x st] ws] eqn:Ws; [discriminate|].
    assert (Lx : lookup (waiters s) x = Some st) by (rewrite Ws; unfold lookup; simpl; now rewrite Nat.eqb_refl).
    pose proof (i_head s I Lk) as H. rewrite Ws in H.
    pose proof (step_inv s (Resume x) I) as I'.
    assert (Dead : live (x, st) = false -> st <> Wp ->
      exists rs, incl rs (map fst ((x, st) :: ws)) /\ inside (run s (map Resume rs)) = [t]).
    { intros Dd NWp.
      assert (NW : remove_waiter (waiters s) x = ws).
      { rewrite Ws. unfold remove_waiter. simpl. rewrite Nat.eqb_refl. simpl. apply remove_waiter_notin.
        pose proof (i_nodup s I) as N. rewrite Ws in N. now inversion N. }
      assert (St : step s (Resume x) =
                   Lock false (wake_up_first ws) (inside s) (free s) (arrivals s) (starts s) (gone s)).
      { cbn [step]. rewrite Lx. destruct st; try discriminate; rewrite Lk, NW; reflexivity. }
      destruct (IH (step s (Resume x)) t r) as [rs [R1 R2]]; auto.
      - rewrite St. cbn [waiters]. rewrite <- (map_length fst), wake_fst, map_length. simpl in Ln. lia.
      - now rewrite St.
      - rewrite St. cbn [waiters]. rewrite wake_live. simpl in W. rewrite Dd in W. exact W.
      - exists (x :: rs). split.
        + intros y [<-|Hy]; [simpl; auto|]. right. specialize (R1 _ Hy). rewrite St in R1.
          cbn [waiters] in R1. now rewrite wake_fst in R1.
        + exact R2. }
    destruct st.
    + destruct H.
    + exists [x]. split; [intros y [<-|[]]; simpl; auto|].
      simpl in W. inversion W; subst x. cbn [map run fold_left step]. rewrite Lx. cbn [inside].
      pose proof (i_inside s I) as Li. rewrite Lk in Li. destruct (inside s); [reflexivity|discriminate].
    + apply Dead; [reflexivity|discriminate].
    + apply Dead; [reflexivity|discriminate].
Qed.

Theorem C11_next_call_starts :
  forall (evs : list event) (t : nat) (r : list nat),
    inside (run init evs) = [] ->
    map fst (filter (fun p => match snd p with Wp | Ww => true | _ => false end)
                    (waiters (run init evs))) = t :: r ->
    exists rs : list nat,
      incl rs (map fst (waiters (run init evs))) /\
      inside (run init (evs ++ map Resume rs)) = [t].
Proof.
  intros evs t r Hi Hw. pose proof (reach_inv evs) as I.
  assert (Lk : locked (run init evs) = false).
  { pose proof (i_inside _ I) as L. rewrite Hi in L. destruct (locked (run init evs)); [discriminate|auto]. }
  destruct (progress _ _ t r I (le_n _) Lk Hw) as [rs [R1 R2]].
  exists rs. split; auto. unfold run in *. now rewrite fold_left_app.
Qed.

(** A history with waiting, cancellation of a woken waiter, and a barging arrival. *)
Definition example_history : list event :=
  [Arrive 1; Arrive 2; Arrive 3; Arrive 4; ArriveFree 9; Cancel 3; Finish 1; Cancel 2; Arrive 5;
   Resume 3; Resume 2].
Example C11_example :
  inside (run init example_history) = [] /\
  waiters (run init example_history) = [(4, Ww); (5, Wp)] /\
  gone (run init example_history) = [3; 2] /\
  inside (run init (example_history ++ [Resume 4])) = [4] /\
  starts (run init (example_history ++ [Resume 4; Finish 4; Resume 5])) = [1; 4; 5].
Proof. repeat split. Qed.
Example C11_quiescent_example :
  (forall t st, In (t, st) (waiters (run init [Arrive 1; Arrive 2])) -> st = Wp) /\
  waiters (run init [Arrive 1; Arrive 2]) <> [].
Proof. split; [intros t st [H|[]]; congruence|discriminate]. Qed.
Example C11_overtaking_example :
  arrivals (run init (example_history ++ [Resume 4])) = [1] ++ 2 :: [3] ++ 4 :: [5] /\
  In 4 (starts (run init (example_history ++ [Resume 4]))).
Proof. split; [reflexivity|simpl; auto]. Qed.

Print Assumptions C10_mutual_exclusion.
Print Assumptions C10_body_runs_once.
Print Assumptions C10_locked_iff_running.
Print Assumptions C11_arrival_order.
Print Assumptions C11_no_overtaking.
Print Assumptions C11_lock_never_lost.
Print Assumptions C11_next_call_starts.
Print Assumptions C10_no_lock_runs_at_once.
Print Assumptions C10_no_lock_disturbs_nobody.
