(** * C68: a worker ends when the process of its main pool ends, and not before

    Reading guide.  [run linux tr s]: the main process and one worker; [tr] is what happened so far, in order:
    the worker's process was [Created] and [Prepared] (preexec_fn is over), its checking thread has
    [Started]; [WorkerEnded]: by the kernel's signal, because its thread or its task found the main process
    gone, or for other reasons ([Itself]); [MainDied]; the process number of the main process becomes free
    ([PidFreed]: somebody has waited for the dead process, or a later owner of the number is gone) or is given to
    another process ([PidTaken]); [Tick]: a tenth of a second passes; [CheckFailed]: psutil raises something
    unexpected. *)
From Coq Require Import List Arith Bool Lia.
From Verif Require Import FateModel.
Import ListNotations.

(** ** Specification *)
Definition ticks (tr : list event) : nat := length (filter (fun e => match e with Tick => true | _ => false end) tr).

(** The property in full: there is a time after which no worker whose checks work is left. *)
Definition C68_claim (linux : bool) : Prop := exists limit, forall t1 t2 s,
  run linux (t1 ++ MainDied :: t2) s -> In Started (t1 ++ t2) -> ~ In CheckFailed (t1 ++ t2) ->
  limit <= ticks t2 -> ~ alive s.

(** ** Proofs *)
Lemma ticks_app : forall a b, ticks (a ++ b) = ticks a + ticks b.
Proof. intros. unfold ticks. now rewrite filter_app, app_length. Qed.

Section Fate.
  Variable linux : bool.
  Notation step := (step linux).
  Notation run := (run linux).

  Lemma event_dec : forall x y : event, {x = y} + {x <> y}.
  Proof. decide equality. decide equality. Qed.

  Record I1 (tr : list event) (s : st) : Prop := {
    i_main : main s = Alive <-> ~ In MainDied tr;
    i_watch : match work s with
              | Running _ _ Stopping | Running _ _ TaskFailed => In MainDied tr
              | _ => True
              end;
    i_prep : match work s with
             | NotYet => ~ In Prepared tr /\ ~ In Started tr /\ ~ In Created tr
             | Forked => ~ In Prepared tr /\ ~ In Started tr
             | Starting a => In Prepared tr /\ ~ In Started tr /\ (linux = true -> main s = Alive -> a = true) /\ (a = true -> main s = Alive)
             | Running a _ _ => In Prepared tr /\ In Started tr /\ (linux = true -> main s = Alive -> a = true) /\ (a = true -> main s = Alive)
             | Ended => True
             end }.

  Lemma not_in_app : forall (e : event) a b, ~ In e (a ++ b) <-> ~ In e a /\ ~ In e b.
  Proof. intros. rewrite in_app_iff. tauto. Qed.

  Ltac sol := intuition (try discriminate; try congruence).
  Ltac ins := cbn [In app main work in_use orphaned kills ticked andb] in *; rewrite ?in_app_iff in *; cbn [In] in *.

  Lemma run_I1 : forall tr s, run tr s -> I1 tr s.
  Proof.
    induction 1 as [|tr s out s' R IH St].
    - constructor; cbn; try tauto.
    - destruct IH as [A B C].
      assert (D : In MainDied tr \/ ~ In MainDied tr) by (destruct (in_dec event_dec MainDied tr); auto).
      assert (In0 : forall e a (l : list event), In e (tr ++ a :: l) <-> In e tr \/ a = e \/ In e l) by (intros; rewrite in_app_iff; reflexivity).
      assert (Nil : tr ++ [] = tr) by apply app_nil_r.
      destruct St; cbn [main work] in *.
      + constructor; cbn [main work]; rewrite ?In0; cbn [In]; sol.
      + destruct n; (constructor; cbn [main work andb]; rewrite ?In0, ?andb_true_r, ?andb_false_r; cbn [In]; sol).
      + constructor; cbn [main work]; rewrite ?In0; cbn [In]; sol.
      + constructor; cbn [main work]; rewrite ?In0; cbn [In]; sol.
      + rewrite Nil. constructor; cbn [main work]; auto.
      + constructor; cbn [main work]; rewrite ?In0; cbn [In]; sol.
      + constructor; cbn [main work]; rewrite ?In0; cbn [In]; [sol| |sol]. destruct w; rewrite ?In0; tauto.
      + rewrite Nil. constructor; cbn [main work]; auto. destruct n; cbn; sol.
      + rewrite Nil. constructor; cbn [main work]; auto. destruct n; cbn; sol.
      + constructor; cbn [main work]; rewrite ?In0; cbn [In]; sol.
      + constructor; cbn [main work]; [rewrite ?In0; cbn [In]; sol| |].
        * destruct w as [| |[]|[] ? []|]; cbn; rewrite ?In0; cbn [In]; auto.
        * destruct w as [| |[]|[] ? []|]; cbn; rewrite ?In0; cbn [In]; sol.
      + assert (N : n <> Alive) by (destruct H; subst; discriminate).
        constructor; cbn [main work]; [rewrite ?In0; cbn [In]; sol| |].
        * destruct w as [| |?|? ? []|]; rewrite ?In0; auto.
        * destruct w as [| |[]|[] ? ?|]; rewrite ?In0; cbn [In]; sol.
      + constructor; cbn [main work]; [rewrite ?In0; cbn [In]; sol| |].
        * destruct w as [| |?|? ? []|]; rewrite ?In0; auto.
        * destruct w as [| |[]|[] ? ?|]; rewrite ?In0; cbn [In]; sol.
      + constructor; cbn [main work]; [rewrite ?In0; cbn [In]; sol| |].
        * destruct w as [| |?|? ? []|]; cbn [ticked]; rewrite ?In0; auto.
        * destruct w as [| |?|? ? []|]; cbn [ticked]; rewrite ?In0; cbn [In]; sol.
  Qed.

  Lemma Ended_stays : forall s out s', step s out s' -> work s = Ended -> work s' = Ended /\ forall c, ~ In (WorkerEnded c) out.
  Proof.
    intros s out s' St E. destruct St; cbn [work] in *; try discriminate; subst; cbn; try tauto;
      try (split; [auto|]; intros c [X|[]]; discriminate).
  Qed.
  Lemma Ended_dead : forall s, work s = Ended -> ~ alive s.
  Proof. intros s E. unfold alive. rewrite E. tauto. Qed.

  (** Only [s_main_dies] has two events. *)
  Lemma out_shape : forall s out s', step s out s' -> length out <= 1 \/ out = [MainDied; WorkerEnded BySignal].
  Proof. intros s out s' St. destruct St; cbn [length]; auto. destruct (kills w); cbn; auto. Qed.

  Lemma split_app : forall A (tr out t1 t2 : list A) x, tr ++ out = t1 ++ x :: t2 ->
    (exists t2', t2 = t2' ++ out /\ tr = t1 ++ x :: t2') \/ (exists o1, out = o1 ++ x :: t2 /\ t1 = tr ++ o1).
  Proof.
    intros A tr. induction tr as [|y tr IH]; intros out t1 t2 x E.
    - right. exists t1. auto.
    - destruct t1 as [|z t1]; cbn [app] in E; injection E as -> E.
      + left. exists tr. now subst.
      + apply IH in E. destruct E as [(t2' & -> & ->)|(o1 & -> & ->)].
        * left. exists t2'. auto.
        * right. exists o1. auto.
  Qed.

  (** ** Theorems *)

  (** No worker is ended for this reason while the main process lives. *)
  Theorem C68_no_false_alarm : forall tr s, run tr s -> forall t1 c t2, tr = t1 ++ WorkerEnded c :: t2 ->
    c = Itself \/ In MainDied t1.
  Proof.
    intros tr s R. induction R as [|tr s out s' R IH St]; intros t1 c t2 E; [destruct t1; discriminate|].
    apply split_app in E. destruct E as [(t2' & -> & E)|(o1 & E & ->)]; [eauto|].
    pose proof (run_I1 _ _ R) as [A B _].
    assert (D : In MainDied tr \/ ~ In MainDied tr) by (destruct (in_dec event_dec MainDied tr); auto).
    rewrite in_app_iff.
    destruct St; cbn [main work] in *;
      try (destruct o1 as [|? [|]]; cbn [app] in E; discriminate);
      try (destruct o1 as [|? [|]]; cbn [app] in E; try discriminate; injection E as <- _; auto; fail).
    - destruct o1 as [|? [|]]; cbn [app] in E; try discriminate. injection E as <- _.
      destruct n; try discriminate. destruct D; auto. assert (Free = Alive) by tauto. discriminate.
    - destruct o1 as [|? o1]; cbn [app] in E; [discriminate|]. injection E as <- E. right. right. now left.
  Qed.

  (** Where the kernel helps, a worker that was prepared does not live a moment
      longer than the main process. *)
  Theorem C68_ends_with_the_main_process_partial : linux = true -> forall t1 t2 s, run (t1 ++ MainDied :: t2) s ->
    In Prepared t1 -> ~ alive s.
  Proof.
    intros L t1 t2 s R P. apply Ended_dead. remember (t1 ++ MainDied :: t2) as tr eqn:E. revert t1 t2 P E.
    induction R as [|tr s out s' R IH St]; intros t1 t2 P E; [destruct t1; discriminate|].
    apply split_app in E. destruct E as [(t2' & -> & E)|(o1 & E & ->)].
    - eapply Ended_stays; eauto.
    - pose proof (run_I1 _ _ R) as [A _ C].
      destruct St; cbn [main work] in *;
        try (destruct o1 as [|? [|]]; cbn [app] in E; discriminate).
      destruct o1 as [|? o1]; [|cbn [app] in E; injection E as <- E; destruct (kills w), o1 as [|? [|]]; discriminate].
      rewrite app_nil_r in P.
      destruct w; cbn [orphaned]; try tauto.
      + destruct C as (_ & _ & C & _). rewrite (C L eq_refl). reflexivity.
      + destruct C as (_ & _ & C & _). rewrite (C L eq_refl). reflexivity.
  Qed.

  (** Ticks since the number became free, the thread started or a check failed -
      whichever was last. *)
  Definition count (k : option nat) (e : event) : option nat :=
    match e with
    | PidFreed => Some 0
    | PidTaken => None
    | Started | CheckFailed => match k with Some _ => Some 0 | None => None end
    | Tick => option_map S k
    | _ => k
    end.
  Definition since (tr : list event) : option nat := fold_left count tr None.
  Lemma since_app : forall a b, since (a ++ b) = fold_left count b (since a).
  Proof. intros. apply fold_left_app. Qed.

  Definition I2 (tr : list event) (s : st) : Prop :=
    (main s = Free <-> since tr <> None) /\
    match work s with Running _ t _ => t <= period /\ (forall k, since tr = Some k -> t + k <= period) | _ => True end.

  Lemma run_I2 : forall tr s, run tr s -> I2 tr s.
  Proof.
    unfold I2. induction 1 as [|tr s out s' R [A B] St]; [cbn; split; [split; [discriminate|tauto]|auto]|].
    rewrite since_app. destruct St; cbn [main work fold_left count] in *; auto.
    - destruct (since tr) as [j|] eqn:Ej; (split; [|split; [apply Nat.le_0_l|]]).
      + split; [discriminate|intros _; apply A; discriminate].
      + intros k E. injection E as <-. apply Nat.le_0_l.
      + exact A.
      + discriminate.
    - split; auto. split; auto. intros k E. rewrite E in *.
      assert (n = Free) by (apply A; discriminate). subst. discriminate.
    - destruct (since tr) as [j|] eqn:Ej; (split; [|split; [apply Nat.le_refl|]]).
      + split; [discriminate|intros _; apply A; discriminate].
      + intros k E. injection E as <-. rewrite Nat.add_0_r. apply Nat.le_refl.
      + exact A.
      + discriminate.
    - split; [|destruct w as [| |[]|[] ? ?|]; cbn [orphaned]; auto]; destruct (kills w); cbn [fold_left count]; auto;
        try (split; [discriminate|]; intros X; apply A in X; discriminate);
        try (destruct B as [B1 B2]; split; auto; intros k E; exfalso; assert (Alive = Free) by (apply A; rewrite E; discriminate); discriminate).
    - split; [split; [discriminate|auto]|]. destruct w; auto. destruct B as [B1 B2]. split; auto.
      intros k E. injection E as <-. lia.
    - split; [split; [discriminate|tauto]|]. destruct w; auto. destruct B. split; auto. discriminate.
    - split; [destruct (since tr); cbn; [split; [discriminate|intros _; apply A; discriminate]|exact A]|].
      destruct w as [| |?|a t w|]; auto. destruct B as [B1 B2].
      assert (G : t <> 0) by (destruct w; cbn in H; destruct t; cbn in H; congruence).
      assert (X : exists w', ticked (Running a t w) = Running a (pred t) w') by (destruct w; cbn; eauto).
      destruct X as [w' ->]. split; [lia|]. intros k E. destruct (since tr) as [j|]; cbn in E; [|discriminate].
      injection E as <-. specialize (B2 j eq_refl). lia.
  Qed.

  Lemma started_once : forall t1 t2 s, run (t1 ++ t2) s -> In Started t1 -> ~ In Started t2.
  Proof.
    intros t1 t2 s R. remember (t1 ++ t2) as tr eqn:E. revert t1 t2 E.
    assert (G : forall tr s, run tr s -> length (filter (fun e => match e with Started => true | _ => false end) tr) <= 1).
    { clear. induction 1 as [|tr s out s' R IH St]; [auto|]. rewrite filter_app, app_length.
      pose proof (run_I1 _ _ R) as [_ _ C].
      destruct St; cbn [filter length] in *; try lia.
      - assert (N : filter (fun e => match e with Started => true | _ => false end) tr = []).
        { cbn [work] in C. destruct C as (_ & C & _). clear - C. induction tr as [|e tr IH]; auto. cbn [filter].
          destruct e; cbn in C; try (apply IH; tauto). tauto. }
        rewrite N. cbn. lia.
      - destruct (kills w); cbn; lia. }
    intros t1 t2 -> I1' I2'. specialize (G _ _ R). rewrite filter_app, app_length in G.
    assert (X : forall l, In Started l -> 1 <= length (filter (fun e => match e with Started => true | _ => false end) l)).
    { intros l Hl. assert (Y : In Started (filter (fun e => match e with Started => true | _ => false end) l)) by (apply filter_In; auto).
      destruct (filter _ l); [contradiction|cbn; lia]. }
    pose proof (X _ I1'). pose proof (X _ I2'). lia.
  Qed.

  Lemma count_quiet : forall l k, ~ In PidTaken l -> ~ In CheckFailed l -> ~ In Started l -> ~ In PidFreed l ->
    fold_left count l (Some k) = Some (k + ticks l).
  Proof.
    induction l as [|e l IH]; intros k N1 N2 N3 N4; cbn [fold_left]; [unfold ticks; cbn; f_equal; lia|].
    destruct e; cbn [count In option_map] in *; try tauto; rewrite IH by tauto; unfold ticks; cbn [filter length]; f_equal; lia.
  Qed.

  (** Otherwise: once the number of the main process has been free for more than
      ten seconds, a worker whose checks run and do not fail is gone. *)
  Theorem C68_ten_seconds_partial : forall t1 t2 s, run (t1 ++ PidFreed :: t2) s -> In Started t1 ->
    ~ In PidTaken t2 -> ~ In CheckFailed t2 -> period < ticks t2 -> ~ alive s.
  Proof.
    intros t1 t2 s R St N1 N2 L X.
    assert (N3 : ~ In Started (PidFreed :: t2)) by (eapply started_once; eauto).
    assert (F : ~ In PidFreed t2).
    { (* a number that is free cannot become free *)
      clear - R N1. intros Y. apply in_split in Y. destruct Y as (u & v & ->).
      assert (G : forall tr s, run tr s -> forall a b c, tr = a ++ PidFreed :: b ++ PidFreed :: c -> ~ In PidTaken b -> False).
      { clear. induction 1 as [|tr s out s' R IH St]; intros a b c E N; [destruct a; discriminate|].
        replace (a ++ PidFreed :: b ++ PidFreed :: c) with ((a ++ PidFreed :: b) ++ PidFreed :: c) in E by (rewrite <- app_assoc; reflexivity).
        apply split_app in E. destruct E as [(t2' & -> & E)|(o1 & E & E2)].
        - eapply (IH a b t2'); auto. rewrite E, <- app_assoc. reflexivity.
        - pose proof (run_I2 _ _ R) as [A _].
          destruct (out_shape _ _ _ St) as [Ls| ->]; [|destruct o1 as [|? [|? [|]]]; discriminate].
          destruct o1 as [|? [|]]; try (rewrite E in Ls; cbn in Ls; rewrite ?app_length in Ls; cbn in Ls; lia).
          rewrite app_nil_r in E2. subst tr. cbn [app] in E. subst out.
          assert (Mf : main s = Free).
          { apply A. rewrite since_app. cbn [fold_left count].
            assert (Q : forall l k, ~ In PidTaken l -> fold_left count l (Some k) <> None).
            { clear. induction l as [|e l IH]; intros k N; cbn [fold_left]; [discriminate|].
              destruct e; cbn [count In option_map] in *; try tauto; apply IH; tauto. }
            now apply Q. }
          inversion St; subst; cbn [main] in *; subst; try discriminate.
          match goal with K : Free = Zombie \/ _ |- _ => destruct K; discriminate end. }
      eapply (G _ _ R t1 u v); [reflexivity|]. rewrite in_app_iff in N1. tauto. }
    destruct (run_I2 _ _ R) as [A B]. destruct (run_I1 _ _ R) as [_ _ C].
    rewrite since_app in A, B. cbn [fold_left count] in A, B.
    rewrite count_quiet in B by (cbn [In] in N3; tauto).
    assert (St' : In Started (t1 ++ PidFreed :: t2)) by (apply in_or_app; auto).
    unfold alive in X. destruct (work s); try tauto. destruct B as [_ B]. specialize (B _ eq_refl). lia.
  Qed.

  (** And a worker that starts its checks when the number is free does not live on. *)
  Theorem C68_late_start_partial : forall t1 t2 s, run (t1 ++ PidFreed :: t2) s ->
    ~ In PidTaken t2 -> ~ In CheckFailed t2 -> (exists u v, t2 = u ++ Started :: v /\ In Tick v) -> ~ alive s.
  Proof.
    intros t1 t2 s R N1 N2 (u & v & -> & T). apply in_split in T. destruct T as (v1 & v2 & ->).
    intros X.
    (* before the first tick the timer is 0, and a tick needs a positive one *)
    assert (G : forall tr s, run tr s -> forall a b c, tr = a ++ PidFreed :: b ++ Started :: c ->
      ~ In PidTaken (b ++ Started :: c) -> ~ In CheckFailed (b ++ Started :: c) ->
      match work s with Running _ t _ => t = 0 | _ => True end /\ (In Tick c -> ~ alive s)).
    { clear. induction 1 as [|tr s out s' R IH St]; intros a b c E N1 N2; [destruct a; discriminate|].
      replace (a ++ PidFreed :: b ++ Started :: c) with ((a ++ PidFreed :: b) ++ Started :: c) in E by (rewrite <- app_assoc; reflexivity).
      apply split_app in E. destruct E as [(t2' & -> & E)|(o1 & E & E2)].
      - assert (M1 : ~ In PidTaken (b ++ Started :: t2') /\ ~ In CheckFailed (b ++ Started :: t2')).
        { rewrite !in_app_iff in *; cbn [In] in *; rewrite !in_app_iff in *. tauto. }
        assert (M2 : ~ In CheckFailed out).
        { rewrite !in_app_iff in *; cbn [In] in *; rewrite !in_app_iff in *. tauto. }
        destruct (IH a b t2') as [J1 J2]; try tauto; [rewrite E, <- app_assoc; reflexivity|].
        assert (Mf : main s = Free).
        { destruct (run_I2 _ _ R) as [A _]. apply A. rewrite E, since_app.
          assert (Q : forall l k, ~ In PidTaken l -> fold_left count l k <> None \/ k = None).
          { clear. induction l as [|e l IH]; intros k N; cbn [fold_left]; [destruct k; auto; left; discriminate|].
            destruct k; [left|auto]. destruct e; cbn [count In option_map] in *; try tauto;
              (edestruct IH as [Z|Z]; [|exact Z|discriminate Z]; tauto). }
          destruct M1 as [M1 _]. rewrite since_app. cbn [fold_left count].
          destruct (Q b (Some 0)) as [Z|Z]; [rewrite in_app_iff in M1; tauto| |discriminate].
          destruct (fold_left count b (Some 0)); [|tauto].
          destruct (Q t2' (Some 0)) as [Z'|Z']; [rewrite in_app_iff in M1; cbn in M1; tauto|exact Z'|discriminate]. }
        destruct St; cbn [main work] in *; subst; auto; try discriminate;
          try (split; [auto; fail|unfold alive; cbn; tauto]; fail);
          try (split; [auto|]; intros T; apply in_app_iff in T; destruct T as [T|[]]; specialize (J2 T); unfold alive in *; cbn in *; tauto).
        + split; auto. intros T. apply in_app_iff in T. destruct T as [T|[T|[]]]; [|discriminate]. specialize (J2 T). unfold alive in *. cbn in *. tauto.
        + split; [auto|]. intros T. apply in_app_iff in T. destruct T as [T|[T|[]]]; [|discriminate]. specialize (J2 T). unfold alive in *. cbn in *. tauto.
        + elim M2. now left.
        + destruct H as [H|H]; discriminate.
        + elim N1. apply in_or_app. right. right. apply in_or_app. right. now left.
        + split; [destruct w as [| |?|? ? []|]; cbn in *; subst; auto|].
          intros T. destruct (run_I1 _ _ R) as [_ _ C]. cbn [work] in C.
          assert (In Started ((a ++ PidFreed :: b) ++ Started :: t2')) by (apply in_or_app; right; now left).
          destruct w as [| |?|? ? []|]; cbn in *; subst; try discriminate; try tauto.
      - destruct (out_shape _ _ _ St) as [Ls| ->]; [|destruct o1 as [|? [|? [|]]]; discriminate].
        destruct o1 as [|? [|]]; try (rewrite E in Ls; cbn in Ls; rewrite ?app_length in Ls; cbn in Ls; lia).
        destruct c; [|rewrite E in Ls; cbn in Ls; lia]. cbn [app] in E.
        split; [|intros []]. inversion St; subst; cbn [work] in *; try discriminate; auto. }
    destruct (G _ _ R t1 u (v1 ++ Tick :: v2) eq_refl N1 N2) as [_ J]. apply J; [|exact X].
    apply in_or_app. right. now left.
  Qed.

  (** A worker whose thread and task run lives as long as the number is in use, however long that is. *)
  Lemma lives_on : forall tr n a, run tr (mk n (Running a 0 (Polling 0))) -> in_use n = true ->
    forall N, exists v t t', run (tr ++ v) (mk n (Running a t (Polling t'))) /\ ticks v = N /\
      (forall e, In e v -> e = Tick).
  Proof.
    intros tr n a R U N. induction N as [|N (v & t & t' & R' & T & Q)].
    - exists [], 0, 0. rewrite app_nil_r. cbn. tauto.
    - assert (P : exists u, run (tr ++ v) (mk n (Running a (S u) (Polling t')))).
      { destruct t as [|t]; [|eauto]. exists 99. rewrite <- (app_nil_r (tr ++ v)). eapply run_step; [exact R'|].
        apply (s_check_alive linux n a (Polling t') U). }
      destruct P as [u P].
      assert (P' : exists u', run (tr ++ v) (mk n (Running a (S u) (Polling (S u'))))).
      { destruct t' as [|t']; [|eauto]. exists 0. rewrite <- (app_nil_r (tr ++ v)). eapply run_step; [exact P|].
        replace (Polling 1) with (if in_use n then Polling nap else Stopping) by (rewrite U; reflexivity).
        apply s_poll. }
      destruct P' as [u' P']. exists (v ++ [Tick]), u, u'. split; [|split].
      + rewrite app_assoc. eapply run_step; [exact P'|]. apply (s_tick linux n (Running a (S u) (Polling (S u')))). reflexivity.
      + rewrite ticks_app, T. cbn. lia.
      + intros e He. apply in_app_iff in He. destruct He as [He|[He|[]]]; auto.
  Qed.

  Ltac go t c := eapply (run_step _ t); [|apply c].
  Ltac quiet tr c := rewrite <- (app_nil_r tr); eapply run_step; [|apply c].

  (** A worker whose main process ends before the kernel was told about it. *)
  Lemma too_early : run [Created; MainDied; Prepared; Started] (mk Zombie (Running false 0 (Polling 0))).
  Proof.
    quiet [Created; MainDied; Prepared; Started] (s_watch linux Zombie false 0).
    go [Created; MainDied; Prepared] (s_start linux Zombie false).
    replace false with (linux && false) at 1 by apply andb_false_r.
    go [Created; MainDied] (s_prepare linux Zombie).
    go [Created] (s_main_dies linux Forked).
    go (@nil event) s_fork. constructor.
  Qed.

  Theorem C68_refuted : ~ C68_claim linux.
  Proof.
    intros [limit H]. destruct (lives_on _ _ _ too_early eq_refl limit) as (v & t & t' & R & T & Q).
    apply (H [Created] ([Prepared; Started] ++ v) _ R).
    - cbn. tauto.
    - cbn [app In]. intros X. repeat (destruct X as [X|X]; [discriminate|]). apply Q in X. discriminate.
    - rewrite ticks_app. cbn. lia.
    - exact I.
  Qed.
  (** The record of what happened is right: the worker has ended if and only if an end of it was
      recorded, it ends once, and a worker that the kernel ends with the main process is recorded at that moment. *)
  Theorem C68_ends_once : forall tr s, run tr s ->
    (work s = Ended <-> exists c, In (WorkerEnded c) tr) /\
    (forall t1 c t2, tr = t1 ++ WorkerEnded c :: t2 -> forall c', ~ In (WorkerEnded c') t1 /\ ~ In (WorkerEnded c') t2).
  Proof.
    assert (L : forall s out s', step s out s' -> work s <> Ended ->
      (work s' = Ended <-> exists c, In (WorkerEnded c) out) /\
      (forall t1 c t2, out = t1 ++ WorkerEnded c :: t2 -> forall c', ~ In (WorkerEnded c') t1 /\ ~ In (WorkerEnded c') t2)).
    { intros s out s' St N. split.
      - destruct St; cbn [work In] in *;
          try (split; [discriminate|intros [c X]; repeat destruct X as [X|X]; try discriminate; contradiction]);
          try (split; [intros _; eexists; left; reflexivity|reflexivity]).
        + destruct w as [| |[]|[] ? ?|]; cbn; (split; [intros X; try discriminate; try contradiction; eexists; right; left; reflexivity|
            intros [c X]; repeat destruct X as [X|X]; try discriminate; try contradiction; reflexivity]).
        + split; [contradiction|intros [c [X|[]]]; discriminate].
        + split; [contradiction|intros [c [X|[]]]; discriminate].
        + split; [|intros [c [X|[]]]; discriminate]. destruct w as [| |?|? ? []|]; cbn [ticked]; try discriminate; contradiction.
      - intros t1 c t2 E. destruct St; cbn [work] in *;
          try (destruct t1 as [|? [|]]; cbn [app] in E; try discriminate; injection E as <- <-; cbn; tauto).
        destruct (kills w); destruct t1 as [|? [|? [|]]]; cbn [app] in E; try discriminate.
        injection E as <- <- <-. intros c'. cbn. split; [intros [X|[]]; discriminate|tauto]. }
    induction 1 as [|tr s out s' R IH St].
    - split; [cbn; split; [discriminate|intros [c []]]|]. intros [|? ?]; discriminate.
    - destruct IH as [A B].
      assert (D : work s = Ended \/ work s <> Ended) by (destruct (work s); auto; right; discriminate).
      destruct D as [D|D].
      + destruct (Ended_stays _ _ _ St D) as [E F]. split.
        * split; [intros _|auto]. apply A in D. destruct D as [c D]. exists c. apply in_or_app. auto.
        * intros t1 c t2 X c'. apply split_app in X. destruct X as [(t2' & -> & X)|(o1 & X & ->)].
          -- destruct (B _ _ _ X c') as [B1 B2]. split; [exact B1|]. rewrite in_app_iff. intros [Y|Y]; [auto|exact (F _ Y)].
          -- elim (F c). rewrite X. apply in_or_app. right. now left.
      + assert (D' : forall c, ~ In (WorkerEnded c) tr) by (intros c X; apply D, A; eauto).
        destruct (L _ _ _ St D) as [E F]. split.
        * rewrite E. split; intros [c X]; exists c; rewrite in_app_iff in *; auto. destruct X as [X|X]; [elim (D' _ X)|exact X].
        * intros t1 c t2 X c'. apply split_app in X. destruct X as [(t2' & -> & X)|(o1 & X & ->)].
          -- elim (D' c). rewrite X. apply in_or_app. right. now left.
          -- destruct (F _ _ _ X c') as [F1 F2]. split; [|exact F2]. rewrite in_app_iff. intros [Y|Y]; [exact (D' _ Y)|auto].
  Qed.

  (** Time is stopped by nothing but a check or a poll that is due, and both can be made: no theorem
      above holds because time cannot pass. *)
  Theorem C68_time_passes : forall tr s, run tr s ->
    exists more s', run (tr ++ more ++ [Tick]) s' /\
      forall e, In e more -> e = WorkerEnded ByCheck.
  Proof.
    intros tr s R. destruct s as [n w].
    assert (T : forall tr n w, run tr (mk n w) -> may_tick w = true -> exists s', run (tr ++ [] ++ [Tick]) s').
    { intros tr0 n0 w0 R0 M. eexists. eapply run_step; [exact R0|]. now apply s_tick. }
    assert (P : forall tr n a t w, run tr (mk n (Running a (S t) w)) -> exists s', run (tr ++ [] ++ [Tick]) s').
    { intros tr0 n0 a t w0 R0. destruct w0 as [| |[|t']|]; try (eapply T; [exact R0|reflexivity]).
      pose proof (run_step linux _ _ _ _ R0 (s_poll linux n0 a (S t))) as R1. rewrite app_nil_r in R1.
      eapply T; [exact R1|]. destruct (in_use n0); reflexivity. }
    destruct w as [| |a|a t w|].
    - destruct (T _ _ _ R eq_refl) as [s' H]. exists [], s'. split; [exact H|contradiction].
    - destruct (T _ _ _ R eq_refl) as [s' H]. exists [], s'. split; [exact H|contradiction].
    - destruct (T _ _ _ R eq_refl) as [s' H]. exists [], s'. split; [exact H|contradiction].
    - destruct t as [|t].
      + destruct (in_use n) eqn:U.
        * pose proof (run_step linux _ _ _ _ R (s_check_alive linux n a w U)) as R1. rewrite app_nil_r in R1.
          destruct (P _ _ _ _ _ R1) as [s' H]. exists [], s'. split; [exact H|contradiction].
        * pose proof (run_step linux _ _ _ _ R (s_check_gone linux n a w U)) as R1.
          destruct (T _ _ _ R1 eq_refl) as [s' H]. exists [WorkerEnded ByCheck], s'. split.
          -- rewrite app_assoc. exact H.
          -- intros e [<-|[]]. reflexivity.
      + destruct (P _ _ _ _ _ R) as [s' H]. exists [], s'. split; [exact H|contradiction].
    - destruct (T _ _ _ R eq_refl) as [s' H]. exists [], s'. split; [exact H|contradiction].
  Qed.
End Fate.

(** *** Without the kernel's help the checks alone are not enough, even for a worker that was up *)
Definition C68_checks_claim : Prop := exists limit, forall t1 t2 s,
  run false (t1 ++ MainDied :: t2) s -> In Started t1 -> ~ In CheckFailed (t1 ++ t2) ->
  limit <= ticks t2 -> ~ alive s.

Ltac go t c := eapply (run_step _ t); [|apply c].
Ltac quiet tr c := rewrite <- (app_nil_r tr); eapply run_step; [|apply c].

Lemma up : run false [Created; Prepared; Started] (mk Alive (Running false 0 (Polling 0))).
Proof.
  quiet [Created; Prepared; Started] (s_watch false Alive false 0).
  go [Created; Prepared] (s_start false Alive false).
  go [Created] (s_prepare false Alive).
  go (@nil event) s_fork. constructor.
Qed.

(** The parent of the main process does not wait for it. *)
Theorem C68_zombie_refuted : ~ C68_checks_claim.
Proof.
  intros [limit H].
  assert (R0 : run false [Created; Prepared; Started; MainDied] (mk Zombie (Running false 0 (Polling 0)))).
  { go [Created; Prepared; Started] (s_main_dies false (Running false 0 (Polling 0))). apply up. }
  destruct (lives_on _ _ _ _ R0 eq_refl limit) as (v & t & t' & R & T & Q).
  apply (H [Created; Prepared; Started] v _ R).
  - cbn. tauto.
  - cbn [app In]. intros X. repeat (destruct X as [X|X]; [discriminate|]). apply Q in X. discriminate.
  - lia.
  - exact I.
Qed.

(** It does, but its number is given to a new process before the next check: neither the thread nor the task
    compares when the process was made. *)
Definition C68_waited_for_claim : Prop := exists limit, forall t1 t2 s,
  run false (t1 ++ PidFreed :: t2) s -> In Started t1 -> ~ In CheckFailed (t1 ++ t2) ->
  limit <= ticks t2 -> ~ alive s.
Theorem C68_number_reused_refuted : ~ C68_waited_for_claim.
Proof.
  intros [limit H].
  assert (R0 : run false [Created; Prepared; Started; MainDied; PidFreed; PidTaken] (mk Foreign (Running false 0 (Polling 0)))).
  { go [Created; Prepared; Started; MainDied; PidFreed] (s_taken false).
    go [Created; Prepared; Started; MainDied] (s_freed false Zombie); [|auto].
    go [Created; Prepared; Started] (s_main_dies false (Running false 0 (Polling 0))). apply up. }
  destruct (lives_on _ _ _ _ R0 eq_refl limit) as (v & t & t' & R & T & Q).
  apply (H [Created; Prepared; Started; MainDied] (PidTaken :: v) _ R).
  - cbn. tauto.
  - cbn [app In]. intros X. repeat (destruct X as [X|X]; [discriminate|]). apply Q in X. discriminate.
  - change (PidTaken :: v) with ([PidTaken] ++ v). rewrite ticks_app. cbn. lia.
  - exact I.
Qed.

(** ** The hypotheses are met *)
Module Demo.
  (** The kernel ends a worker that is up. *)
  Example by_the_kernel : run true ([Created; Prepared; Started; Tick] ++ MainDied :: [WorkerEnded BySignal]) (mk Zombie Ended).
  Proof.
    go [Created; Prepared; Started; Tick] (s_main_dies true (Running true 99 NoTask)).
    go [Created; Prepared; Started] (s_tick true Alive (Running true 100 NoTask)); [|reflexivity].
    quiet [Created; Prepared; Started] (s_check_alive true Alive true NoTask); [|reflexivity].
    go [Created; Prepared] (s_start true Alive true).
    go [Created] (s_prepare true Alive).
    go (@nil event) s_fork. constructor.
  Qed.
  Example not_alive : ~ alive (mk Zombie Ended).
  Proof. exact (C68_ends_with_the_main_process_partial true eq_refl _ _ _ by_the_kernel (or_intror (or_introl eq_refl))). Qed.

  (** Without it: the number becomes free, the worker sleeps for ten seconds (its task has
      stopped it, but an actor does not let go), and then its thread ends it. *)
  Fixpoint times (n : nat) : list event := match n with 0 => [] | S n => times n ++ [Tick] end.
  Lemma sleeps : forall n tr a k, run false tr (mk Free (Running a (n + k) Stopping)) ->
    run false (tr ++ times n) (mk Free (Running a k Stopping)).
  Proof.
    induction n as [|n IH]; intros tr a k R; cbn [times]; [now rewrite app_nil_r|].
    rewrite app_assoc. eapply run_step; [apply (IH tr a (S k)); replace (n + S k) with (S n + k) by lia; exact R|].
    apply (s_tick false Free (Running a (S k) Stopping)). reflexivity.
  Qed.
  Definition before : list event := [Created; Prepared; Started; MainDied; PidFreed].
  Example ten_seconds : run false (before ++ times 100 ++ [WorkerEnded ByCheck; Tick]) (mk Free Ended).
  Proof.
    change [WorkerEnded ByCheck; Tick] with ([WorkerEnded ByCheck] ++ [Tick]). rewrite !app_assoc.
    eapply run_step; [|apply (s_tick false Free Ended); reflexivity].
    eapply run_step; [|apply (s_check_gone false Free false Stopping); reflexivity].
    apply sleeps. change (100 + 0) with 100.
    quiet before (s_poll false Free false 100).
    go [Created; Prepared; Started; MainDied] (s_freed false Zombie); [|auto].
    go [Created; Prepared; Started] (s_main_dies false (Running false 100 (Polling 0))).
    quiet [Created; Prepared; Started] (s_check_alive false Alive false (Polling 0)); [|reflexivity].
    apply up.
  Qed.
  Lemma ticks_times : forall n, ticks (times n) = n.
  Proof. induction n; cbn [times]; auto. rewrite ticks_app, IHn. cbn. lia. Qed.
  Example ten_seconds_hypotheses :
    before ++ times 100 ++ [WorkerEnded ByCheck; Tick] = [Created; Prepared; Started; MainDied] ++ PidFreed :: (times 100 ++ [WorkerEnded ByCheck; Tick]) /\
    In Started [Created; Prepared; Started; MainDied] /\
    ~ In PidTaken (times 100 ++ [WorkerEnded ByCheck; Tick]) /\ ~ In CheckFailed (times 100 ++ [WorkerEnded ByCheck; Tick]) /\
    period < ticks (times 100 ++ [WorkerEnded ByCheck; Tick]).
  Proof.
    assert (N : forall n e, In e (times n) -> e = Tick).
    { induction n; cbn [times]; [intros e []|]. intros e H. apply in_app_iff in H. destruct H as [H|[H|[]]]; auto. }
    split; [reflexivity|]. split; [cbn; tauto|]. split; [|split].
    - intros H. apply in_app_iff in H. destruct H as [H|H]; [apply N in H; discriminate|cbn in H; intuition discriminate].
    - intros H. apply in_app_iff in H. destruct H as [H|H]; [apply N in H; discriminate|cbn in H; intuition discriminate].
    - rewrite ticks_app, ticks_times. cbn. unfold period. lia.
  Qed.

  (** A worker that starts late, when the number is free: the first check ends it. *)
  Example late : run false ([Created; MainDied] ++ PidFreed :: [Prepared; Started; WorkerEnded ByCheck; Tick]) (mk Free Ended).
  Proof.
    go [Created; MainDied; PidFreed; Prepared; Started; WorkerEnded ByCheck] (s_tick false Free Ended); [|reflexivity].
    go [Created; MainDied; PidFreed; Prepared; Started] (s_check_gone false Free false NoTask); [|reflexivity].
    go [Created; MainDied; PidFreed; Prepared] (s_start false Free false).
    go [Created; MainDied; PidFreed] (s_prepare false Free).
    go [Created; MainDied] (s_freed false Zombie); [|auto].
    go [Created] (s_main_dies false Forked).
    go (@nil event) s_fork. constructor.
  Qed.
  Example late_ends : ~ alive (mk Free Ended).
  Proof.
    apply (C68_late_start_partial false _ _ _ late); [cbn; intuition discriminate|cbn; intuition discriminate|].
    exists [Prepared], [WorkerEnded ByCheck; Tick]. cbn. auto.
  Qed.
End Demo.

Print Assumptions C68_no_false_alarm.
Print Assumptions C68_ends_with_the_main_process_partial.
Print Assumptions C68_ten_seconds_partial.
Print Assumptions C68_late_start_partial.
Print Assumptions C68_refuted.
Print Assumptions C68_zombie_refuted.
Print Assumptions C68_number_reused_refuted.
Print Assumptions C68_ends_once.
Print Assumptions C68_time_passes.
