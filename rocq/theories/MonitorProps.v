(** * C64: a lost worker process is noticed and replaced, and waiting for it works

    Reading guide.  [run recover addrs tr s]: a main pool was created with sub
    pools at [addrs] (processes 0, 1, ... in that order) and with or without
    auto_recover; [tr] is what was seen so far, in order (the events are
    described in MonitorModel).  Processes die at any time ([Died p]) and some
    time later asyncio sets their return code ([Noticed p]); kill_actor of the
    last actor and kill_sub_pool wait for that.  Sub pools are appended
    ([Ready]) and removed ([Removed]) at any time; [WaitCalled n a known] /
    [WaitReturned n] is a call of wait_actor_pool_recovered; [known] tells that
    the process at [a] is known to be dead at that moment.  [Down] and
    [Recovered] are the two callbacks.  [RoundDone]: the monitor has looked at
    every sub pool once and sleeps for half a second. *)
From Coq Require Import List Arith Bool Lia.
From Verif Require Import Base MonitorModel MonitorProofs.
Import ListNotations.

(** ** Specification *)

(** [a] is the address of a sub pool that nobody has removed. *)
Definition a_sub_pool (addrs : list nat) (tr : list event) (a : nat) : Prop :=
  (In a addrs \/ exists p, In (Ready a p) tr) /\ ~ In (Removed a) tr.

(** [p] was started as the process of the pool at [a]. *)
Definition started_for (addrs : list nat) (tr : list event) (a p : nat) : Prop :=
  nth_error addrs p = Some a \/ In (Ready a p) tr.

Definition rounds_in (t : list event) : nat :=
  length (filter (fun e => match e with RoundDone => true | _ => false end) t).

(** ** What holds *)

(** A wait that is called when the pool's process is known to be dead returns
    only after a new process of that pool is up.
    Missing: the process may be dead without asyncio having noticed
    ([C64_wait_too_early_refuted]), and its actors may not be back
    ([C64_wait_without_actors_refuted]). *)
Theorem C64_wait_means_new_process_partial :
  forall addrs tr s, run true addrs tr s ->
  forall t1 n a t2 t3,
  tr = t1 ++ WaitCalled n a true :: t2 ++ WaitReturned n :: t3 ->
  exists p, In (Ready a p) t2.
Proof. exact wait_sound. Qed.

(** The same without the flag: what was seen before the call tells whether it is "known". *)

(** A new process of [a] is up, and its actors are being created. *)
Definition restarting (tr : list event) (a : nat) : Prop := exists u q v, tr = u ++ Ready a q :: v /\
  (exists p, In (Down a p) u) /\ ~ In (Recovered a) v /\ ~ In (ReplayFailed a) v.

Lemma noticed_known : forall r addrs tr s, run r addrs tr s -> forall p, In (Noticed p) tr -> alive s p = Known.
Proof.
  intros r addrs tr s R. induction R as [N|tr s out s' R IH St]; intros p X; [contradiction|].
  destruct (run_BW _ _ _ _ R) as (IB & _). apply in_app_iff in X. destruct X as [X|X]; [eapply known_stays; eauto|].
  destruct St; try (exfalso; nope X). destruct X as [X|[]]. injection X as ->. sm. unfold set_life. now rewrite Nat.eqb_refl.
Qed.
Lemma handle_started : forall r addrs tr s, run r addrs tr s -> forall a p, In (a, p) (handles s) -> started_for addrs tr a p.
Proof.
  intros r addrs tr s R. induction R as [N|tr s out s' R IH St]; intros a p X.
  - left. unfold init in X. sm.
    assert (G : forall l n, In (a, p) (combine l (seq n (length l))) -> n <= p /\ nth_error l (p - n) = Some a).
    { induction l as [|x l IH]; intros n Y; cbn [length seq combine In] in Y; [contradiction|]. destruct Y as [Y|Y].
      - injection Y as -> ->. split; [lia|]. now rewrite Nat.sub_diag.
      - destruct (IH _ Y) as [A B]. split; [lia|]. replace (p - n) with (S (p - S n)) by lia. exact B. }
    destruct (G addrs 0 X) as [_ Y]. now rewrite Nat.sub_0_r in Y.
  - assert (K : In (a, p) (handles s) -> started_for addrs (tr ++ out) a p).
    { intros Y. destruct (IH _ _ Y) as [Z|Z]; [now left|right; apply in_or_app; auto]. }
    destruct St; sm; rewrite ?pop_handles in X; auto.
    + apply In_dset in X. destruct X as [[-> ->]|X]; [|auto]. right. apply in_or_app. right. now left.
    + apply In_ddel in X. auto.
    + destruct (wait_same s a0) as (E & _). rewrite E in X. auto.
    + apply In_dset in X. destruct X as [[-> ->]|X]; [|auto]. right. apply in_or_app. right. now left.
Qed.
Lemma starting_down : forall r addrs tr s, run r addrs tr s -> forall a d t, mon s = Starting a d t -> exists p, In (Down a p) tr.
Proof.
  intros r addrs tr s R. induction R as [N|tr s out s' R IH St]; intros a d' t M.
  - unfold init in M. sm. destruct addrs; discriminate.
  - assert (K : mon s = Starting a d' t -> exists p, In (Down a p) (tr ++ out)).
    { intros X. destruct (IH _ _ _ X) as [p Y]. exists p. apply in_or_app. auto. }
    destruct St; sm; auto; try discriminate.
    + destruct (wait_same s a0) as (_ & _ & E). rewrite E in M. auto.
    + injection M as <- <- <-. exists p. apply in_or_app. right. now left.
Qed.
Lemma replaying_restarting : forall r addrs tr s, run r addrs tr s -> forall a d t, mon s = Replaying a d t -> restarting tr a.
Proof.
  intros r addrs tr s R. induction R as [N|tr s out s' R IH St]; intros a d' t M.
  - unfold init in M. sm. destruct addrs; discriminate.
  - assert (K : mon s = Replaying a d' t -> ~ In (Recovered a) out -> ~ In (ReplayFailed a) out -> restarting (tr ++ out) a).
    { intros X N1 N2. destruct (IH _ _ _ X) as (u & q & v & E & D & A & B). exists u, q, (v ++ out).
      rewrite E, <- app_assoc. repeat split; auto; rewrite in_app_iff; tauto. }
    destruct St; sm; try discriminate; try (apply K; [exact M|intros X; nope X|intros X; nope X]).
    + destruct (wait_same s a0) as (_ & _ & E). rewrite E in M. apply K; [exact M|intros X; nope X|intros X; nope X].
    + injection M as <- <- <-. exists tr, (next s), []. split; [reflexivity|]. split; [eapply starting_down; eauto|]. cbn. tauto.
Qed.
Lemma wait_flag : forall r addrs tr s, run r addrs tr s -> forall t1 n a k t2, tr = t1 ++ WaitCalled n a k :: t2 ->
  exists s1, run r addrs t1 s1 /\ k = known_dead s1 a.
Proof.
  intros r addrs tr s R. induction R as [N|tr s out s' R IH St]; intros t1 n a k t2 E.
  - destruct t1; discriminate.
  - apply split_app in E. destruct E as [(t2' & -> & E)|(o1 & E & ->)]; [eauto|].
    assert (X : In (WaitCalled n a k) out) by (rewrite E; apply in_or_app; right; now left).
    destruct St; try (exfalso; nope X).
    exists s. destruct o1 as [|e o1].
    + rewrite app_nil_r. split; [exact R|]. cbn [app] in E. injection E as _ <- <- _. reflexivity.
    + exfalso. cbn [app] in E. injection E as _ E. destruct (auto s); destruct o1 as [|? [|]]; discriminate.
Qed.

(** A call of wait_actor_pool_recovered for a sub pool all of whose processes were found to have ended
    returns only after a new one is up - unless one came up already and its actors are being created. *)
Theorem C64_wait_after_loss_partial :
  forall addrs tr s, run true addrs tr s ->
  forall t1 n a known t2 t3, tr = t1 ++ WaitCalled n a known :: t2 ++ WaitReturned n :: t3 ->
  a_sub_pool addrs t1 a -> (forall p, started_for addrs t1 a p -> In (Noticed p) t1) -> ~ restarting t1 a ->
  exists q, In (Ready a q) t2.
Proof.
  intros addrs tr s R t1 n a k t2 t3 E P D NR. destruct (wait_flag _ _ _ _ R _ _ _ _ _ E) as (s1 & R1 & K).
  assert (T : k = true).
  { rewrite K. unfold known_dead. pose proof (attached _ _ _ _ _ R1 P) as H.
    destruct (dget (handles s1) a) as [p|] eqn:G; [|apply dget_None in G; contradiction].
    apply dget_In in G. rewrite (noticed_known _ _ _ _ R1 p (D p (handle_started _ _ _ _ R1 _ _ G))). cbn [is_known andb].
    destruct (mon s1) eqn:M; try reflexivity. destruct (Nat.eqb_spec a0 a); [|reflexivity]. subst.
    elim NR. eapply replaying_restarting; eauto. }
  rewrite T in E. exact (wait_sound _ _ _ R _ _ _ _ _ E).
Qed.

(** A wait for a sub pool returns before the second round of the monitor after
    the call is over, unless the pool is removed or its restart fails. *)
Theorem C64_wait_returns_in_two_rounds :
  forall addrs tr s, run true addrs tr s ->
  forall t1 n a known t2,
  tr = t1 ++ WaitCalled n a known :: t2 ->
  a_sub_pool addrs t1 a ->
  ~ In (Removed a) t2 -> ~ In (StartFailed a) t2 -> ~ In (ReplayFailed a) t2 ->
  2 <= rounds_in t2 ->
  In (WaitReturned n) t2.
Proof.
  intros addrs tr s R t1 n a k t2 E P NR NS NF Two.
  destruct (wait_two_rounds _ _ _ R _ _ _ _ _ E P NR) as [X|[_ [X|[X _]]]]; auto.
  - intros [X|X]; contradiction.
  - unfold rounds_in in Two. unfold rounds, is_done in X. lia.
  - unfold rounds_in in Two. unfold rounds, is_done in X. lia.
Qed.

(** Without auto_recover a wait returns at once. *)
Theorem C64_wait_without_recovery_returns :
  forall addrs tr s, run false addrs tr s ->
  forall n a known, In (WaitCalled n a known) tr -> In (WaitReturned n) tr.
Proof.
  intros addrs tr s R n a k X. remember false as r eqn:Er.
  induction R as [N|tr s out s' R IH St]; [contradiction|].
  destruct (run_BW _ _ _ _ R) as (IB & IW & IA). subst r.
  apply in_or_app. apply in_app_iff in X. destruct X as [X|X]; [auto|]. right.
  destruct St; try (exfalso; nope X).
  destruct X as [X|X]; [|exfalso; nope X]. injection X as -> -> _. rewrite IA. right. now left.
Qed.

(** on_process_down is called only for a process that has ended. *)
Theorem C64_down_only_for_dead :
  forall recover addrs tr s, run recover addrs tr s ->
  forall t1 a p t2, tr = t1 ++ Down a p :: t2 -> In (Noticed p) t1 /\ In (Died p) t1.
Proof.
  intros r addrs tr s R t1 a p t2 E.
  assert (X : In (Noticed p) t1) by (eapply down_noticed; eauto). split; auto.
  apply in_split in X. destruct X as (l1 & l2 & ->).
  apply in_or_app. left. rewrite <- app_assoc in E. cbn [app] in E.
  exact (proj2 (noticed_died _ _ _ _ R) _ _ _ E).
Qed.

(** With auto_recover it is called again for the same process only after an
    attempt to start the new process has failed.
    Missing: the failed attempts, and pools without auto_recover
    ([C64_down_again_and_again_refuted]). *)
Theorem C64_down_once_partial :
  forall addrs tr s, run true addrs tr s ->
  forall a p t1 t2 t3, tr = t1 ++ Down a p :: t2 ++ Down a p :: t3 -> In (StartFailed a) t2.
Proof. exact down_once. Qed.

(** When a process of a sub pool is found to have ended, on_process_down is
    called before the second round is over, and with auto_recover a new process
    is up by then, unless its start failed. *)
Theorem C64_loss_noticed :
  forall recover addrs tr s, run recover addrs tr s ->
  forall t1 p t2 a, tr = t1 ++ Noticed p :: t2 -> started_for addrs t1 a p ->
  ~ In (Removed a) tr -> ~ In (StartFailed a) t2 -> 2 <= rounds_in t2 ->
  In (Down a p) t2 /\ (recover = true -> exists q, In (Ready a q) t2).
Proof.
  intros r addrs tr s R t1 p t2 a E P NR NS Two.
  destruct (run_BW _ _ _ _ R) as (_ & _ & IA).
  assert (T : 2 <= rounds t2) by exact Two.
  destruct (loss_noticed _ _ _ _ R _ _ _ _ E P NR NS) as [(X & Y)|[(_ & X & _)|(_ & _ & _ & [X|[X _]])]]; try lia.
  split; auto. intros ->. destruct Y as [Y|Y]; [congruence|exact Y].
Qed.

(** Rounds do not stop: whatever has happened, the monitor of a pool that was
    created with sub pools can finish another round in which no attempt fails,
    except for pools that were removed. *)
Theorem C64_rounds_go_on :
  forall recover addrs tr s, run recover addrs tr s -> addrs <> [] ->
  exists t s', run recover addrs (tr ++ t) s' /\ In RoundDone t /\
    (forall a, ~ In (Removed a) t) /\ (forall a, ~ In (ReplayFailed a) t) /\
    (forall a, In (StartFailed a) t -> In (Removed a) tr).
Proof. exact rounds_go_on. Qed.

(** ** Concrete runs *)
Module Demo.
  Ltac go c := match goal with R : run _ _ _ _ |- _ =>
    eapply run_step in R; [|eapply c; first [reflexivity | (cbn; discriminate) | (cbn; intuition discriminate)]]; cbn [app] in R end.
  Ltac start r l := assert (R : run r l [] (init r l))
    by (apply run_init; repeat constructor; cbn [In]; intuition discriminate).

  (** Two workers; worker 0 is killed and somebody waits: the callbacks, the new
      process and the return of the wait. *)
  Example killed_and_restarted : exists s,
    run true [7; 8]
      [Died 0; Noticed 0; WaitCalled 0 7 true; Down 7 0; Ready 7 2; Recovered 7; WaitReturned 0; RoundDone; RoundDone] s.
  Proof.
    start true [7; 8].
    go (fun s => s_die s 0). go (fun s => s_notice s 0). go (fun s => s_wait s 7).
    go s_round. go s_restart. go s_ready. go s_replayed. go s_alive. go s_done.
    go s_round. go s_alive. go s_alive. go s_done.
    eexists. exact R.
  Qed.

  (** The hypotheses of the theorems above are met by this run. *)
  Example two_rounds : In (WaitReturned 0) [Down 7 0; Ready 7 2; Recovered 7; WaitReturned 0; RoundDone; RoundDone] /\
    In (Down 7 0) [WaitCalled 0 7 true; Down 7 0; Ready 7 2; Recovered 7; WaitReturned 0; RoundDone; RoundDone].
  Proof.
    destruct killed_and_restarted as [s R]. split.
    - eapply (C64_wait_returns_in_two_rounds _ _ _ R [Died 0; Noticed 0] 0 7 true); [reflexivity| | | | |].
      + split; [cbn; auto|]. cbn [In]. intuition discriminate.
      + cbn [In]. intuition discriminate.
      + cbn [In]. intuition discriminate.
      + cbn [In]. intuition discriminate.
      + cbn. lia.
    - eapply (C64_loss_noticed _ _ _ _ R [Died 0] 0 _ 7); [reflexivity|left; reflexivity| | |].
      + cbn [In]. intuition discriminate.
      + cbn [In]. intuition discriminate.
      + cbn. lia.
  Qed.

  (** A failed start is tried again in the next round. *)
  Example started_again : exists s,
    run true [7] [Died 0; Noticed 0; Down 7 0; StartFailed 7; RoundDone; Down 7 0; Ready 7 1; Recovered 7; RoundDone] s.
  Proof.
    start true [7]. go (fun s => s_die s 0). go (fun s => s_notice s 0).
    go s_round. go s_restart. go s_start_failed. go s_done. go s_round. go s_restart. go s_ready. go s_replayed. go s_done.
    eexists. exact R.
  Qed.
End Demo.

(** ** What does not hold *)

(** A main pool that was created without sub pools never monitors those that
    are appended later: a worker that dies is never reported nor replaced and
    every wait for it hangs, however long one waits (pool.py 1342: the monitor
    is started in [start] only, and only if there are sub pools by then). *)
Theorem C64_appended_pools_unmonitored_refuted :
  (exists s, run true [] [Ready 7 0; Died 0; Noticed 0; WaitCalled 0 7 true] s) /\
  forall tr s, run true [] tr s ->
    forall a p n, ~ In (Down a p) tr /\ ~ In (Recovered a) tr /\ ~ In (WaitReturned n) tr.
Proof.
  split.
  - Demo.start true (@nil nat).
    Demo.go (fun s => s_append s 7). Demo.go (fun s => s_die s 0). Demo.go (fun s => s_notice s 0).
    Demo.go (fun s => s_wait s 7). eexists. exact R.
  - intros tr s R a p n. destruct (never_monitored _ _ _ R) as [_ N].
    repeat split; intros X; apply N in X; [contradiction|contradiction|discriminate].
Qed.

(** A wait for an address that is not (and never will be) one of the main
    pool's sub pools hangs for ever (pool.py 1251-1256 does not check it). *)
Theorem C64_wait_for_unknown_refuted :
  (exists s, run true [7] [WaitCalled 0 9 false; RoundDone] s) /\
  forall addrs tr s, run true addrs tr s ->
    forall n a known, In (WaitCalled n a known) tr -> ~ In a addrs -> (forall p, ~ In (Ready a p) tr) ->
    ~ In (WaitReturned n) tr.
Proof.
  split.
  - Demo.start true [7]. Demo.go (fun s => s_wait s 9). Demo.go s_round. Demo.go s_alive. Demo.go s_done.
    eexists. exact R.
  - intros addrs tr s R n a k C NA NR X.
    destruct (returned_for _ _ _ R _ _ _ C X) as [Y|[p Y]]; [auto|]. now apply (NR p).
Qed.

(** A process has died, asyncio has not yet set its return code: the wait
    returns although nothing was restarted. *)
Theorem C64_wait_too_early_refuted :
  exists s, run true [7] [Died 0; WaitCalled 0 7 false; WaitReturned 0; RoundDone; Noticed 0] s.
Proof.
  Demo.start true [7]. Demo.go (fun s => s_die s 0). Demo.go (fun s => s_wait s 7).
  Demo.go s_round. Demo.go s_alive. Demo.go s_done. Demo.go (fun s => s_notice s 0).
  eexists. exact R.
Qed.

(** Creating the actors again fails (indigen/pool.py 502-506): the next round
    takes the new process for healthy, the wait returns, the actors are missing
    and on_process_recover is never called. *)
Theorem C64_wait_without_actors_refuted :
  exists s, run true [7] [Died 0; Noticed 0; WaitCalled 0 7 true; Down 7 0; Ready 7 1; ReplayFailed 7; RoundDone;
    WaitReturned 0; RoundDone] s.
Proof.
  Demo.start true [7]. Demo.go (fun s => s_die s 0). Demo.go (fun s => s_notice s 0). Demo.go (fun s => s_wait s 7).
  Demo.go s_round. Demo.go s_restart. Demo.go s_ready. Demo.go s_replay_failed. Demo.go s_done.
  Demo.go s_round. Demo.go s_alive. Demo.go s_done.
  eexists. exact R.
Qed.

(** Without auto_recover one death is reported again in every round. *)
Theorem C64_down_again_and_again_refuted :
  forall k, exists tr s, run false [7] tr s /\ length (filter (fun e => match e with Died _ => true | _ => false end) tr) = 1 /\
    length (filter (fun e => match e with Down 7 0 => true | _ => false end) tr) = k.
Proof.
  intros k.
  assert (G : exists tr s, run false [7] tr s /\ length (filter (fun e => match e with Died _ => true | _ => false end) tr) = 1 /\
    length (filter (fun e => match e with Down 7 0 => true | _ => false end) tr) = k /\
    mon s = Sleeping /\ alive s 0 = Known /\ auto s = false /\ handles s = [(7, 0)]).
  { induction k as [|k (tr & s & R & D1 & D2 & M & A & F & H)].
    - Demo.start false [7]. Demo.go (fun s => s_die s 0). Demo.go (fun s => s_notice s 0).
      do 2 eexists. split; [exact R|]. repeat split; reflexivity.
    - eapply run_step in R; [|apply s_round; exact M]. rewrite app_nil_r in R. rewrite H in R.
      eapply run_step in R; [|apply (s_down _ 7 0 []); [reflexivity|exact A|exact F]].
      eapply run_step in R; [|apply s_done; reflexivity].
      do 2 eexists. split; [exact R|].
      assert (Q : forall g, (forall n, g (WaitReturned n) = false) -> filter g (popped (member 7 (waits s)) 7 s) = []).
      { intros g Hg. destruct (filter g (popped (member 7 (waits s)) 7 s)) as [|e l] eqn:E; auto.
        assert (X : In e (filter g (popped (member 7 (waits s)) 7 s))) by (rewrite E; now left).
        apply filter_In in X. destruct X as [X Y]. apply popped_In in X. destruct X as (_ & n & -> & _). congruence. }
      assert (Pm : waits (set_mon s (Round [(7, 0)])) = waits s) by reflexivity.
      cbn [waits set_mon].
      split; [|split].
      + rewrite !filter_app, !app_length. cbn [filter length]. 
        change (popped (member 7 (waits s)) 7 (set_mon s (Round [(7, 0)]))) with (popped (member 7 (waits s)) 7 s).
        rewrite Q by reflexivity. cbn [length]. lia.
      + rewrite !filter_app, !app_length. cbn [filter length].
        change (popped (member 7 (waits s)) 7 (set_mon s (Round [(7, 0)]))) with (popped (member 7 (waits s)) 7 s).
        rewrite Q by reflexivity. cbn [length]. lia.
      + cbn [mon set_mon]. split; auto.
        destruct (pop_same (member 7 (waits s)) 7 (set_mon s (Round [(7, 0)]))) as (E1 & _ & E3 & E4 & _).
        cbn [alive auto handles set_mon] in *. rewrite E1, E3, E4. auto. }
  destruct G as (tr & s & R & D1 & D2 & _). eauto 6.
Qed.

(** A pool that is removed on purpose while the monitor is looking at others is
    reported as lost (1461 iterates over a copy). *)
Theorem C64_removed_reported_refuted :
  exists s, run true [7; 8] [Removed 8; Died 1; Noticed 1; Down 8 1; StartFailed 8; RoundDone] s.
Proof.
  Demo.start true [7; 8]. Demo.go s_round.
  eapply run_step in R; [|apply (s_remove _ 8 1); reflexivity]. cbn [app] in R.
  Demo.go (fun s => s_die s 1). Demo.go (fun s => s_notice s 1). Demo.go s_alive. Demo.go s_restart_gone. Demo.go s_done.
  eexists. exact R.
Qed.

(** A pool that is removed while its restart is under way comes back. *)
Theorem C64_removed_comes_back_refuted :
  exists s, run true [7] [Died 0; Noticed 0; Down 7 0; Removed 7; Ready 7 1; Recovered 7; RoundDone; RoundDone] s /\
    dget (handles s) 7 = Some 1.
Proof.
  Demo.start true [7]. Demo.go (fun s => s_die s 0). Demo.go (fun s => s_notice s 0). Demo.go s_round. Demo.go s_restart.
  eapply run_step in R; [|apply (s_remove _ 7 0); reflexivity]. cbn [app] in R.
  Demo.go s_ready. Demo.go s_replayed. Demo.go s_done. Demo.go s_round. Demo.go s_alive. Demo.go s_done.
  eexists. split; [exact R|reflexivity].
Qed.

Print Assumptions C64_wait_after_loss_partial.
Print Assumptions C64_wait_means_new_process_partial.
Print Assumptions C64_wait_returns_in_two_rounds.
Print Assumptions C64_wait_without_recovery_returns.
Print Assumptions C64_down_only_for_dead.
Print Assumptions C64_down_once_partial.
Print Assumptions C64_loss_noticed.
Print Assumptions C64_rounds_go_on.
Print Assumptions C64_appended_pools_unmonitored_refuted.
Print Assumptions C64_wait_for_unknown_refuted.
Print Assumptions C64_wait_too_early_refuted.
Print Assumptions C64_wait_without_actors_refuted.
Print Assumptions C64_down_again_and_again_refuted.
Print Assumptions C64_removed_reported_refuted.
Print Assumptions C64_removed_comes_back_refuted.
