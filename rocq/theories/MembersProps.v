(** * C67: an actor pool and its workers agree on who belongs to the pool

    Reading guide.  A main pool (process index [i], address [m]) and what happens
    to its workers, in order: [os].  append_sub_pool is called ([Append]), its
    worker comes up ([Up]) or not ([Failed]); remove_sub_pool is called
    ([Remove]), the worker ends ([Stopped]); after both the main pool sends its
    configuration to all workers ([Send], [Deliver], or not: [Unsent], [Lose]);
    workers die ([Crash]) and are started again ([Restart], [Restarted]).
    [run (initial i m) os = Some s]: all this is possible, and leads to [s].
    [members os]: the workers that came up and were not removed; [waiting os]: the
    appends whose worker did not come up, yet or for ever.
    [told_by_main s], [told_by_worker s p]: the external addresses that
    get_pool_config reports, asked at the main pool or the worker process [p].
    [tidy]: no address is used by two at a time.  [quiet]: nothing is under way. *)
From Coq Require Import List Bool Arith Lia Permutation.
From Verif Require Import Dict MembersModel MembersSpec MembersProofs.
Import ListNotations.

(** ** What holds *)

(** The main pool reports itself, its members and the appends that have not
    succeeded, each once, whatever happens.
    Missing: that failed appends are not reported ([C67_failed_append_refuted]). *)
Theorem C67_main_pool_knows_partial : forall i m os s, run (initial i m) os = Some s -> tidy m os ->
  Permutation (told_by_main s) (At m :: map At (members os) ++ map snd (waiting os)).
Proof.
  intros i m os s R T. destruct (known_run i m os s R T) as [P _ _ _]. unfold told_by_main, members.
  etransitivity; [apply Permutation_map, P|]. cbn. rewrite map_app. unfold up_entries. rewrite !map_map. reflexivity.
Qed.

Definition all_know (m : nat) (os : list op) (s : state) : Prop :=
  Permutation (told_by_main s) (At m :: map At (members os)) /\
  forall a, In a (members os) -> exists p, gget Nat.eqb (subs s) a = Some p /\ gget Nat.eqb (home s) p = Some a /\ ~ In p (dead s) /\
    told_by_worker s p = Some (told_by_main s).

Lemma all_know_if : forall i m os s, run (initial i m) os = Some s -> tidy m os -> (forall o, In o os -> calm o) -> quiet s ->
  (forall a p, gget Nat.eqb (subs s) a = Some p -> gget Nat.eqb (views s) p = Some (cfg s)) -> all_know m os s.
Proof.
  intros i m os s R T C Q V. split.
  - etransitivity; [eapply C67_main_pool_knows_partial; eauto|].
    destruct (waiting os) as [|[k e] w] eqn:W; [cbn; now rewrite app_nil_r|exfalso].
    assert (I : In k (gkeys (starting s))) by (eapply waiting_starts; eauto; rewrite W; now left).
    destruct Q as (Q & _). rewrite Q in I. destruct I.
  - intros a I. assert (A : alive os s) by (eapply alive_run; eauto). apply (l_members _ _ A) in I.
    destruct (gget_Some_key Nat.eqb Nat.eqb_spec _ _ I) as [p G]. exists p. destruct (l_subs _ _ A a p G) as (H1 & _ & H3).
    repeat split; auto. unfold told_by_worker. now rewrite (V a p G).
Qed.

(** When nothing goes wrong and no message overtakes another one to the same
    worker: as soon as nothing is under way, the main pool and every worker report
    exactly the main pool and all members; however many appends and removals ran
    at the same time.
    Missing: messages can overtake ([C67_overtaken_refuted]), workers die
    ([C67_restarted_refuted]) and appends fail. *)
Theorem C67_all_know_partial : forall i m os s, run (initial i m) os = Some s -> tidy m os -> always smooth_op (initial i m) os ->
  quiet s -> all_know m os s.
Proof.
  intros i m os s R T A Q. assert (C := always_run_calm _ _ _ _ _ smooth_calm R A).
  eapply all_know_if; eauto. intros a p G. destruct Q as (Q1 & Q2 & _ & Q4 & Q5).
  destruct (informed_run i m os s R T A a p G) as [I|[I|[I|I]]]; try congruence; [rewrite Q4 in I; destruct I|].
  unfold lastview in I. now rewrite Q5 in I.
Qed.

(** The same in any order of messages, if appends and removals are made one at a
    time. *)
Theorem C67_one_at_a_time_partial : forall i m os s, run (initial i m) os = Some s -> tidy m os -> always single_op (initial i m) os ->
  quiet s -> all_know m os s.
Proof.
  intros i m os s R T A Q. assert (C := always_run_calm _ _ _ _ _ single_calm R A).
  eapply all_know_if; eauto. intros a p G. destruct Q as (Q1 & Q2 & _ & Q4 & Q5).
  destruct (e_view _ (serial_run i m os s R T A) a p G) as [I|[I|[I|[I|I]]]]; try congruence; [rewrite Q4 in I; destruct I|rewrite Q5 in I; destruct I].
Qed.

(** What is under way can always end: no set of overlapping appends, removals and
    messages blocks each other. *)
Theorem C67_can_finish : forall i m os s, run (initial i m) os = Some s -> tidy m os -> always smooth_op (initial i m) os ->
  exists os' s', run (initial i m) (os ++ os') = Some s' /\ tidy m (os ++ os') /\ always smooth_op (initial i m) (os ++ os') /\
    quiet s' /\ all_know m (os ++ os') s' /\
    (forall o, In o os' -> match o with Append _ _ _ | Remove _ => False | _ => True end).
Proof.
  intros i m os s R T A. destruct (finish_starting i m (length (starting s)) os s (conj R (conj T A)) (le_n _)) as (os' & s' & (R' & T' & A') & Q & F).
  exists os', s'. repeat split; auto; try apply Q.
  - apply (C67_all_know_partial i m (os ++ os') s'); auto.
  - apply (C67_all_know_partial i m (os ++ os') s'); auto.
  - intros o I. specialize (F o I). destruct o; cbn in F; tauto.
Qed.

(** ** What does not hold *)

Definition C67_claim : Prop := forall i m os s, run (initial i m) os = Some s -> tidy m os -> quiet s ->
  Permutation (told_by_main s) (At m :: map At (members os)).

(** A check of [tidy], for the examples *)
Definition tidy_opb (m : nat) (os1 : list op) (o : op) : bool :=
  match o with
  | Append _ (At b) _ => negb (b =? m) && negb (memb b (members os1)) && negb (existsb (is_at b) (map snd (waiting os1)))
  | Up i a => negb (a =? m) && negb (memb a (members os1)) && negb (memb a (leaving os1)) &&
              forallb (fun w => negb (is_at a (snd w)) || (fst w =? i)) (waiting os1)
  | Remove a => memb a (members os1)
  | _ => true
  end.
Fixpoint tidyb (m : nat) (os1 os2 : list op) : bool :=
  match os2 with [] => true | o :: r => tidy_opb m os1 o && tidyb m (os1 ++ [o]) r end.
Lemma tidyb_sound : forall m os, tidyb m [] os = true -> tidy m os.
Proof.
  intros m os H. assert (G : forall os2 os1, tidyb m os1 os2 = true -> tidy m os1 -> tidy m (os1 ++ os2)).
  { induction os2 as [|o r IH]; intros os1 B T; [now rewrite app_nil_r|]. cbn in B. apply andb_true_iff in B as [B1 B2].
    replace (os1 ++ o :: r) with ((os1 ++ [o]) ++ r) by now rewrite <- app_assoc. apply IH; [exact B2|]. apply tidy_add; [exact T|].
    destruct o as [i [|b] p|i a|i|a|a|a p|a|n|n|p|a p|a]; cbn [tidy_op tidy_opb] in *; try exact I.
    - apply andb_true_iff in B1 as [B1 B3]. apply andb_true_iff in B1 as [B0 B1]. apply negb_true_iff in B0, B1, B3.
      apply Nat.eqb_neq in B0. apply memb_not in B1. repeat split; auto. intros J.
      assert (X : existsb (is_at b) (map snd (waiting os1)) = true); [|congruence]. apply existsb_exists. exists (At b). split; [exact J|]. cbn. apply Nat.eqb_refl.
    - apply andb_true_iff in B1 as [B1 B4]. apply andb_true_iff in B1 as [B1 B3]. apply andb_true_iff in B1 as [B0 B1].
      apply negb_true_iff in B0, B1, B3. apply Nat.eqb_neq in B0. apply memb_not in B1, B3. repeat split; auto.
      intros k J. rewrite forallb_forall in B4. specialize (B4 _ J). cbn in B4. rewrite Nat.eqb_refl in B4. now apply Nat.eqb_eq.
    - now apply memb_In. }
  apply (G os [] H). intros os1 o os2 E. destruct os1; discriminate.
Qed.
Ltac tidy_concrete := apply tidyb_sound; reflexivity.

(** An append fails (its process does not start).  Its entry host:0 remains in the
    configuration for ever: it is reported, and create_actor with the strategies
    that choose by themselves may choose it and fail. *)
Theorem C67_failed_append_refuted : ~ C67_claim /\
  (forall os s, run (initial 0 9) ([Append 1 Unknown 4; Failed 1] ++ os) = Some s ->
     In Unknown (told_by_main s) /\ random_may_pick s Unknown).
Proof.
  split.
  - intros H. specialize (H 0 9 [Append 1 Unknown 4; Failed 1] _ eq_refl).
    assert (P : Permutation [At 9; Unknown] [At 9]) by (apply H; [tidy_concrete|repeat split]).
    apply Permutation_length in P. discriminate.
  - intros os s R. rewrite run_app in R. destruct (run (initial 0 9) [Append 1 Unknown 4; Failed 1]) as [s0|] eqn:E; [|discriminate].
    assert (Ph : phantom s0 1).
    { injection E as <-. split; [cbn; auto|]. split; [|reflexivity]. cbn. repeat constructor; cbn; intuition discriminate. }
    apply (phantom_stays os _ s 1 R) in Ph as (I & _). assert (J : In Unknown (map snd (cfg s))) by (apply in_map_iff; exists (1, Unknown); auto).
    split; exact J.
Qed.

(** create_actor only chooses the main pool or a member: refuted, as long as an
    append is under way (it takes seconds). *)
Theorem C67_append_under_way_refuted :
  ~ (forall i m os s e, run (initial i m) os = Some s -> tidy m os -> always smooth_op (initial i m) os -> random_may_pick s e ->
       exists a, e = At a /\ (a = m \/ In a (members os))).
Proof.
  intros H. destruct (H 0 9 [Append 1 Unknown 4] _ Unknown eq_refl) as (a & E & _); [tidy_concrete|cbn; auto|cbn; auto|discriminate].
Qed.

(** Workers agree with the main pool when nothing is under way: refuted. *)
Definition C67_workers_claim : Prop := forall i m os s, run (initial i m) os = Some s -> tidy m os -> quiet s ->
  forall a p, In a (members os) -> gget Nat.eqb (subs s) a = Some p -> ~ In p (dead s) -> told_by_worker s p = Some (told_by_main s).

(** Two appends at the same time.  The second configuration is sent over a new
    connection (the client cache is thrown away by each sync, router.py 94-104) and
    arrives first: worker 1 keeps the older configuration, without 3. *)
Definition overtaking : list op :=
  [Append 1 Unknown 4; Up 1 1; Send 1 4; Deliver 0;
   Append 2 Unknown 5; Append 3 Unknown 6;
   Up 2 2; Send 1 4; Send 2 5;
   Up 3 3; Send 1 4; Send 2 5; Send 3 6;
   Deliver 2; Deliver 0; Deliver 0; Deliver 0; Deliver 0].
Theorem C67_overtaken_refuted : ~ C67_workers_claim /\
  exists s, run (initial 0 9) overtaking = Some s /\ quiet s /\ ~ In (Failed 1) overtaking /\
    told_by_main s = [At 9; At 1; At 2; At 3] /\
    told_by_worker s 4 = Some [At 9; At 1; At 2; Unknown] /\
    told_by_worker s 5 = Some [At 9; At 1; At 2; At 3].
Proof.
  split.
  - intros H. destruct (run (initial 0 9) overtaking) as [s|] eqn:E; [|vm_compute in E; discriminate]. specialize (H 0 9 overtaking s E). vm_compute in E. injection E as <-.
    assert (X : Some [At 9; At 1; At 2; Unknown] = Some [At 9; At 1; At 2; At 3]); [|discriminate X].
    apply (H ltac:(tidy_concrete) ltac:(repeat split) 1 4); [cbn; auto|reflexivity|cbn; tauto].
  - eexists. split; [vm_compute; reflexivity|]. repeat split. cbn. intuition discriminate.
Qed.

(** A worker is restarted while another one is appended.  It was started with the
    configuration of before, and nobody tells it the new one. *)
Definition restarted : list op :=
  [Append 1 Unknown 4; Up 1 1; Send 1 4; Deliver 0; Append 2 Unknown 5;
   Crash 4; Restart 1 7; Up 2 2; Unsent 1; Send 2 5; Deliver 0; Restarted 1].
Theorem C67_restarted_refuted : ~ C67_workers_claim /\
  exists s, run (initial 0 9) restarted = Some s /\ quiet s /\
    told_by_main s = [At 9; At 1; At 2] /\ gget Nat.eqb (subs s) 1 = Some 7 /\ ~ In 7 (dead s) /\
    told_by_worker s 7 = Some [At 9; At 1; Unknown].
Proof.
  split.
  - intros H. destruct (run (initial 0 9) restarted) as [s|] eqn:E; [|vm_compute in E; discriminate]. specialize (H 0 9 restarted s E). vm_compute in E. injection E as <-.
    assert (X : Some [At 9; At 1; Unknown] = Some [At 9; At 1; At 2]); [|discriminate X].
    apply (H ltac:(tidy_concrete) ltac:(repeat split) 1 7); [cbn; auto|reflexivity|cbn; intuition discriminate].
  - eexists. split; [vm_compute; reflexivity|]. repeat split. cbn. intuition discriminate.
Qed.

(** ** Examples *)
Module Demo.
  (** Two workers are appended and, at the same time, one of them is removed. *)
  Definition busy : list op :=
    [Append 1 Unknown 4; Append 2 (At 2) 5; Up 1 1; Remove 1; Up 2 2; Send 2 5; Stopped 1; Unsent 1;
     Send 2 5; Deliver 0; Deliver 0].
  Example busy_runs : exists s, run (initial 0 9) busy = Some s /\ quiet s /\ tidy 9 busy /\ members busy = [2] /\
    told_by_main s = [At 9; At 2] /\ told_by_worker s 5 = Some [At 9; At 2].
  Proof. eexists. split; [vm_compute; reflexivity|]. repeat split. tidy_concrete. Qed.
  Example busy_smooth : always smooth_op (initial 0 9) busy.
  Proof.
    cbn. repeat (split; [first [exact I|intros p c _ k; lia|cbn; intuition (try lia; try discriminate); fail|idtac]|intros ? [= <-]]); cbn; auto.
  Qed.
End Demo.

Print Assumptions C67_main_pool_knows_partial.
Print Assumptions C67_all_know_partial.
Print Assumptions C67_one_at_a_time_partial.
Print Assumptions C67_can_finish.
Print Assumptions C67_failed_append_refuted.
Print Assumptions C67_append_under_way_refuted.
Print Assumptions C67_overtaken_refuted.
Print Assumptions C67_restarted_refuted.
