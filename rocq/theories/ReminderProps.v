(** * C77: the reminders of the debug mode come in time and stop

    How to read.  With a timeout of [z] > 0 ticks for its place, a block that is entered at time [t0] and not left
    is reported after z, 3 z, 6 z, ... ticks (the pauses grow: z, 2 z, 3 z, ...): the n-th report at
    t0 + z n (n+1) / 2.  [reports s i]: the reports of block [i], first one first, each with the time at
    which it is logged and the duration it names.  [asked o p]: the option in [o] for place [p].
    [idle res s]: no task has anything to do at this moment.

    Proved, for every interleaving: no report before its time, and none once the block is left, so none for a
    block left within its timeout (C77_not_early, C77_quiet, C77_fast); if the loop comes to rest, no report is
    later than that (C77_in_time); exactly the reports of that list if the loop is never late (C77_exact);
    none if the option is None, 0, negative or debugging is off when the block is entered (C77_unasked).
    False: that nothing is logged once debugging is switched off (C77_off_refuted) and that options
    change nothing but what is logged (C77_only_logs_refuted): with an option that is not a number
    no body is run, i.e. every call fails (C77_only_logs_partial says when it is). *)
From Coq Require Import List Arith Bool ZArith String Lia.
From Verif Require Import ReminderModel.
Import ListNotations.
Open Scope nat_scope.

(** ** Specification *)
Definition reports (s : st) (i : nat) : list (nat * nat) := map snd (filter (fun e => fst e =? i) (log s)).
Definition asked (o : options) (p : site) : value :=
  match o, p with
  | mkO c _ _ _ _, AwaitCall => c
  | mkO _ m _ _ _, ProcessMessage => m
  | mkO _ _ l _ _, HoldLock => l
  end.
Definition idle (res : nat) (s : st) : Prop := forall i, step res s (Turn i) = None.
(** The loop is never late: time passes one tick at a time, and only when there is nothing to do. *)
Fixpoint prompt (res : nat) (s : st) (tr : list event) : Prop :=
  match tr with
  | [] => True
  | x :: r => (forall n, x = Tick n -> n = 1 /\ idle res s) /\ (forall s', step res s x = Some s' -> prompt res s' r)
  end.
(** The moment of the last report of a list, or [d] if there is none. *)
Definition last_time (l : list (nat * nat)) (d : nat) : nat := last (map fst l) d.

(** ** Proofs *)
Lemma asked_is o p : timeout_val o p = asked o p.
Proof. now destruct o, p. Qed.
Lemma run_app res tr1 tr2 s : run res s (tr1 ++ tr2) = match run res s tr1 with Some s1 => run res s1 tr2 | None => None end.
Proof. revert s. induction tr1 as [|x tr1 IH]; intros s; cbn; auto. destruct (step res s x); auto. Qed.
Lemma reports_add s s' i j t e : log s' = log s ++ [(j, (t, e))] -> reports s' i = reports s i ++ (if j =? i then [(t, e)] else []).
Proof. unfold reports. intros ->. rewrite filter_app, map_app. cbn. now destruct (j =? i). Qed.

(** What a step does to one block. *)
Inductive moves (res : nat) (s : st) (x : event) (i : nat) (b : block) (s' : st) : block -> Prop :=
  | M_same : reports s' i = reports s i -> moves res s x i b s' b
  | M_leave0 : x = Leave i -> reports s' i = reports s i -> b = mkB Open NoTask -> moves res s x i b s' (mkB Left NoTask)
  | M_leave r : x = Leave i -> reports s' i = reports s i -> b = mkB Open r -> r <> NoTask -> moves res s x i b s' (mkB Left Stopped)
  | M_start p t : x = Turn i -> reports s' i = reports s i -> b = mkB p (Created t) -> now s' = now s -> moves res s x i b s' (mkB p (Asleep t (now s) 1 (now s + t * 1)))
  | M_log p t st0 rnd due : x = Turn i -> reports s' i = reports s i ++ [(now s, now s - st0)] -> b = mkB p (Asleep t st0 rnd due) -> now s' = now s ->
      due <= now s + res -> moves res s x i b s' (mkB p (Asleep t st0 (rnd + 1) (now s + t * (rnd + 1)))).
Lemma step_moves res s x s' i b : step res s x = Some s' -> blocks s i = Some b -> exists b', blocks s' i = Some b' /\ moves res s x i b s' b'.
Proof.
  intros S B. destruct x as [o|j p|j|j|n]; cbn in S.
  - injection S as <-. exists b. split; auto. now apply M_same.
  - destruct (blocks s j) eqn:E; [discriminate|]. injection S as <-. exists b. cbn. destruct (Nat.eqb_spec i j); [congruence|]. split; auto. now apply M_same.
  - destruct (blocks s j) as [[[] r]|] eqn:E; try discriminate. destruct (Nat.eq_dec i j) as [->|N].
    + assert (b = mkB Open r) by congruence. subst b. destruct r; injection S as <-; cbn; rewrite Nat.eqb_refl; eexists; (split; [reflexivity|]);
        try (now apply M_leave0); eapply M_leave; cbn; eauto; discriminate.
    + destruct r; injection S as <-; cbn; (destruct (Nat.eqb_spec i j); [congruence|]); exists b; split; auto; now apply M_same.
  - destruct (blocks s j) as [[p [|t|t s0 rnd due|]]|] eqn:E; try discriminate.
    + injection S as <-. cbn. destruct (Nat.eqb_spec i j) as [->|N].
      * assert (b = mkB p (Created t)) by congruence. subst b. eexists. split; [reflexivity|]. eapply M_start; cbn; eauto.
      * exists b. split; auto. now apply M_same.
    + destruct (due <=? now s + res) eqn:D; [|discriminate]. apply Nat.leb_le in D. injection S as <-. cbn. destruct (Nat.eqb_spec i j) as [->|N].
      * assert (b = mkB p (Asleep t s0 rnd due)) by congruence. subst b. eexists. split; [reflexivity|]. eapply M_log; [reflexivity| |reflexivity|reflexivity|exact D].
        etransitivity; [apply (reports_add s _ j j (now s) (now s - s0)); reflexivity|]. now rewrite Nat.eqb_refl.
      * exists b. split; auto. apply M_same. etransitivity; [apply (reports_add s _ i j (now s) (now s - s0)); reflexivity|]. destruct (Nat.eqb_spec j i); [congruence|]. apply app_nil_r.
  - injection S as <-. exists b. split; auto. now apply M_same.
Qed.
Lemma now_step res s x s' : step res s x = Some s' -> now s <= now s' /\ (forall n, x <> Tick n) -> now s' = now s.
Proof. intros S [_ N]. destruct x; cbn in S; repeat (match type of S with context [match ?c with _ => _ end] => destruct c eqn:? end; try discriminate); try (now injection S as <-); now destruct (N n). Qed.
Lemma now_up res s x s' : step res s x = Some s' -> now s <= now s'.
Proof. intros S. destruct x; cbn in S; repeat (match type of S with context [match ?c with _ => _ end] => destruct c eqn:? end; try discriminate); injection S as <-; cbn; lia. Qed.
Lemma now_run res tr : forall s s', run res s tr = Some s' -> now s <= now s'.
Proof. induction tr as [|x tr IH]; cbn; intros s s' R; [injection R as <-; auto|]. destruct (step res s x) eqn:S; [|discriminate]. apply now_up in S. apply IH in R. lia. Qed.

(** Only blocks have reports. *)
Lemma unborn res tr : forall s, (forall i, blocks s i = None -> reports s i = []) -> forall s', run res s tr = Some s' -> forall i, blocks s' i = None -> reports s' i = [].
Proof.
  induction tr as [|x tr IH]; cbn; intros s H s' R; [injection R as <-; auto|]. destruct (step res s x) as [s1|] eqn:S; [|discriminate]. apply (IH s1); auto.
  intros i N. destruct (blocks s i) eqn:B.
  - destruct (step_moves _ _ _ _ _ _ S B) as (b' & B' & _). congruence.
  - rewrite <- (H i B). destruct x as [o|j p|j|j|n]; cbn in S.
    + now injection S as <-.
    + destruct (blocks s j); [discriminate|]. now injection S as <-.
    + destruct (blocks s j) as [[[] r]|]; try discriminate. destruct r; now injection S as <-.
    + destruct (blocks s j) as [[p [|t|t s0 rnd due|]]|] eqn:E; try discriminate.
      * now injection S as <-.
      * destruct (due <=? now s + res); [|discriminate]. injection S as <-. etransitivity; [apply (reports_add s _ i j (now s) (now s - s0)); reflexivity|]. destruct (Nat.eqb_spec j i); [congruence|]. apply app_nil_r.
    + now injection S as <-.
Qed.
Lemma fresh_reports res o tr s i : run res (fresh o) tr = Some s -> blocks s i = None -> reports s i = [].
Proof. intros R. eapply (unborn _ _ _ _ _ R). Unshelve. auto. Qed.

(** *** A block that is watched *)
Definition spaced (T res st0 : nat) (l : list (nat * nat)) : Prop :=
  forall n t e, nth_error l n = Some (t, e) -> st0 <= t /\ e = t - st0 /\ 2 * st0 + T * (S n * S (S n)) <= 2 * t + 2 * (S n * res).
Definition watched (T res t0 : nat) (i : nat) (s : st) : Prop :=
  t0 <= now s /\ exists p r, blocks s i = Some (mkB p r) /\
  match r with
  | NoTask => False
  | Created T' => T' = T /\ reports s i = []
  | Asleep T' st0 rnd due => T' = T /\ t0 <= st0 <= now s /\ rnd = S (List.length (reports s i)) /\ due = last_time (reports s i) st0 + T * rnd /\
      last_time (reports s i) st0 <= now s /\
      2 * st0 + T * (List.length (reports s i) * rnd) <= 2 * last_time (reports s i) st0 + 2 * (List.length (reports s i) * res) /\ spaced T res st0 (reports s i)
  | Stopped => exists st0, t0 <= st0 /\ spaced T res st0 (reports s i)
  end.
Lemma last_snoc (l : list (nat * nat)) t e d : last_time (l ++ [(t, e)]) d = t.
Proof. unfold last_time. rewrite map_app. cbn. apply last_last. Qed.
Lemma spaced_nil T res s0 : spaced T res s0 [].
Proof. intros [|n] t e; discriminate. Qed.
Lemma spaced_snoc T res s0 l t : spaced T res s0 l -> s0 <= t -> 2 * s0 + T * (S (List.length l) * S (S (List.length l))) <= 2 * t + 2 * (S (List.length l) * res) -> spaced T res s0 (l ++ [(t, t - s0)]).
Proof.
  intros P L1 L2 n t' e N. destruct (Nat.lt_ge_cases n (List.length l)) as [L|L].
  - rewrite nth_error_app1 in N by auto. now apply P.
  - rewrite nth_error_app2 in N by auto. destruct (n - List.length l) as [|k] eqn:E; [|destruct k; discriminate].
    assert (n = List.length l) by lia. subst n. cbn in N. injection N as <- <-. auto.
Qed.
Lemma watched_step T res t0 i s x s' : step res s x = Some s' -> watched T res t0 i s -> watched T res t0 i s'.
Proof.
  intros S (W1 & p & r & B & W). split; [apply now_up in S; lia|]. destruct (step_moves _ _ _ _ _ _ S B) as (b' & B' & M). inversion M; subst.
  - exists p, r. split; auto. rewrite H. apply now_up in S. destruct r; auto. intuition lia.
  - injection H1 as -> ->. contradiction.
  - injection H1 as -> <-. exists Left, Stopped. split; auto. rewrite H0. destruct r.
    + contradiction.
    + exists t0. split; auto. destruct W as [_ ->]. apply spaced_nil.
    + exists start. intuition.
    + auto.
  - injection H1 as -> ->. exists p0, (Asleep t (now s) 1 (now s + t * 1)). destruct W as [-> W]. rewrite H0, W. split; auto. cbn. rewrite H2. intuition (auto using spaced_nil; try lia).
  - injection H1 as -> ->. destruct W as (-> & (L1 & L1') & -> & -> & L2 & L3 & P). eexists p0, _. split; [exact B'|]. rewrite H0, app_length, last_snoc. cbn [List.length].
    assert (L5 : 2 * st0 + T * (Datatypes.S (List.length (reports s i)) * Datatypes.S (Datatypes.S (List.length (reports s i)))) <= 2 * now s + 2 * (Datatypes.S (List.length (reports s i)) * res)) by nia.
    rewrite H2. replace (List.length (reports s i) + 1) with (Datatypes.S (List.length (reports s i))) by lia. replace (Datatypes.S (List.length (reports s i)) + 1) with (Datatypes.S (Datatypes.S (List.length (reports s i)))) by lia.
    intuition auto using spaced_snoc.
Qed.
Lemma watched_run T res t0 i tr : forall s s', run res s tr = Some s' -> watched T res t0 i s -> watched T res t0 i s'.
Proof. induction tr as [|x tr IH]; cbn; intros s s' R W; [now injection R as <-|]. destruct (step res s x) eqn:S; [|discriminate]. eauto using watched_step. Qed.
Lemma watched_enter res o0 tr1 s1 i p o z s2 : run res (fresh o0) tr1 = Some s1 -> opts s1 = Some o -> asked o p = VNum z -> (0 < z)%Z -> step res s1 (Enter i p) = Some s2 ->
  watched (Z.to_nat z) res (now s1) i s2 /\ blocks s2 i = Some (mkB Open (Created (Z.to_nat z))) /\ now s2 = now s1.
Proof.
  intros R O A Z S. cbn in S. destruct (blocks s1 i) eqn:E; [discriminate|]. injection S as <-. unfold enter. rewrite O, asked_is, A, (proj2 (Z.ltb_lt 0 z)) by auto.
  unfold put. cbn. rewrite Nat.eqb_refl. split; [|auto]. split; cbn; auto. rewrite Nat.eqb_refl. do 2 eexists. split; [reflexivity|]. split; auto. apply (fresh_reports _ _ _ _ _ R E).
Qed.

(** ** Theorems *)
(** The (n+1)-st report is not before its time (up to the resolution of the clock, which each pause can be cut by), and the
    duration it names is not longer than the block has lasted. *)
Theorem C77_not_early : forall res o0 tr1 s1 i p o z tr2 s n t e, run res (fresh o0) tr1 = Some s1 -> opts s1 = Some o -> asked o p = VNum z -> (0 < z)%Z ->
  run res s1 (Enter i p :: tr2) = Some s -> nth_error (reports s i) n = Some (t, e) ->
  2 * now s1 + Z.to_nat z * ((n + 1) * (n + 2)) <= 2 * t + 2 * ((n + 1) * res) /\ Z.to_nat z * ((n + 1) * (n + 2)) <= 2 * e + 2 * ((n + 1) * res) /\ now s1 + e <= t.
Proof.
  intros res o0 tr1 s1 i p o z tr2 s n t e R O A Z R2 N. cbn [run] in R2. destruct (step res s1 (Enter i p)) as [s2|] eqn:S; [|discriminate].
  destruct (watched_enter _ _ _ _ _ _ _ _ _ R O A Z S) as (W & _ & _). apply (watched_run _ _ _ _ _ _ _ R2) in W. destruct W as (_ & ph & r & _ & W).
  assert (H : exists st0, now s1 <= st0 /\ spaced (Z.to_nat z) res st0 (reports s i)).
  { destruct r; [contradiction| | |auto].
    - destruct W as [_ W]. rewrite W in N. destruct n; discriminate.
    - exists start. intuition. }
  destruct H as (st0 & L & P). apply P in N. replace (n + 1) with (Datatypes.S n) by lia. replace (n + 2) with (Datatypes.S (Datatypes.S n)) by lia. destruct N as (N1 & -> & N2). nia.
Qed.

(** A block that is left is not reported any more. *)
Theorem C77_quiet : forall res s1 i tr s, run res s1 (Leave i :: tr) = Some s -> reports s i = reports s1 i.
Proof.
  intros res s1 i tr s R. cbn [run] in R. destruct (step res s1 (Leave i)) as [s2|] eqn:S; [|discriminate].
  assert (H : reports s2 i = reports s1 i /\ exists r, blocks s2 i = Some (mkB Left r) /\ (r = NoTask \/ r = Stopped)).
  { cbn in S. destruct (blocks s1 i) as [[[] r]|]; try discriminate. destruct r; injection S as <-; cbn; rewrite Nat.eqb_refl; split; eauto. }
  destruct H as (<- & H). clear S. revert s2 R H. induction tr as [|x tr IH]; cbn; intros s2 R (r & B & E); [now injection R as <-|].
  destruct (step res s2 x) as [s3|] eqn:S; [|discriminate]. destruct (step_moves _ _ _ _ _ _ S B) as (b' & B' & M).
  inversion M; subst; try discriminate; try (match goal with H : mkB _ _ = mkB _ _ |- _ => injection H as ? ?; subst end; destruct E; discriminate).
  rewrite <- H. apply IH; eauto.
Qed.
(** A block that is left within its timeout is never reported. *)
Theorem C77_fast : forall res o0 tr1 s1 i p o z tr2 s2 tr3 s, run res (fresh o0) tr1 = Some s1 -> opts s1 = Some o -> asked o p = VNum z -> (0 < z)%Z ->
  run res s1 (Enter i p :: tr2) = Some s2 -> now s2 + res < now s1 + Z.to_nat z -> run res s2 (Leave i :: tr3) = Some s -> reports s i = [].
Proof.
  intros res o0 tr1 s1 i p o z tr2 s2 tr3 s R O A Z R2 L R3. rewrite (C77_quiet _ _ _ _ _ R3). destruct (reports s2 i) as [|[t e] l] eqn:E; auto. exfalso.
  assert (N : nth_error (reports s2 i) 0 = Some (t, e)) by now rewrite E.
  destruct (C77_not_early _ _ _ _ _ _ _ _ _ _ _ _ _ R O A Z R2 N) as (N1 & _ & _).
  assert (H : forall tr sa sb, run res sa tr = Some sb -> (forall t e, In (t, e) (reports sa i) -> t <= now sa) -> forall t e, In (t, e) (reports sb i) -> t <= now sb).
  { clear. induction tr as [|x tr IH]; cbn; intros sa sb R H; [now injection R as <-|]. destruct (step res sa x) as [sc|] eqn:S; [|discriminate]. apply (IH sc); auto.
    intros t e J. assert (U := now_up _ _ _ _ S). destruct (blocks sa i) eqn:B.
    - destruct (step_moves _ _ _ _ _ _ S B) as (b' & _ & M). inversion M; subst; try (match goal with Q : reports sc i = reports sa i |- _ => rewrite Q in J end; apply H in J; lia).
      match goal with Q : reports sc i = _ |- _ => rewrite Q in J end. apply in_app_or in J. destruct J as [J|[J|[]]]; [apply H in J; lia|]. injection J as <- <-. lia.
    - assert (Q : reports sc i = reports sa i); [|rewrite Q in J; apply H in J; lia]. destruct x as [o|j p|j|j|n]; cbn in S.
      + now injection S as <-.
      + destruct (blocks sa j); [discriminate|]. now injection S as <-.
      + destruct (blocks sa j) as [[[] r]|]; try discriminate. destruct r; now injection S as <-.
      + destruct (blocks sa j) as [[p [|t'|t' s0 rnd due|]]|] eqn:E'; try discriminate.
        * now injection S as <-.
        * destruct (due <=? now sa + res); [|discriminate]. injection S as <-. erewrite (reports_add sa) by reflexivity. destruct (Nat.eqb_spec j i); [congruence|]. apply app_nil_r.
      + now injection S as <-. }
  assert (T : t <= now s2).
  { assert (RA : run res (fresh o0) (tr1 ++ Enter i p :: tr2) = Some s2) by (rewrite run_app, R; exact R2). apply (H _ _ _ RA) with (e := e); [intros ? ? []|]. rewrite E. now left. }
  lia.
Qed.

(** In time: let the loop have come to rest since the block was entered (at [s2]) and again now (at [s]).  The next report, one pause after the last one
    (which is one longer than the pause before), is then not due yet. *)
Theorem C77_in_time : forall res o0 tr1 s1 i p o z tr2 s2 tr3 s, run res (fresh o0) tr1 = Some s1 -> opts s1 = Some o -> asked o p = VNum z -> (0 < z)%Z ->
  run res s1 (Enter i p :: tr2) = Some s2 -> idle res s2 -> run res s2 tr3 = Some s -> idle res s -> ~ In (Leave i) (tr2 ++ tr3) ->
  now s + res < last_time (reports s i) (now s2) + Z.to_nat z * (List.length (reports s i) + 1).
Proof.
  intros res o0 tr1 s1 i p o z tr2 s2 tr3 s R O A Z R2 I2 R3 I3 N. cbn [run] in R2. destruct (step res s1 (Enter i p)) as [sa|] eqn:S; [|discriminate].
  destruct (watched_enter _ _ _ _ _ _ _ _ _ R O A Z S) as (W & B & _). assert (W2 := watched_run _ _ _ _ _ _ _ R2 W). assert (W3 := watched_run _ _ _ _ _ _ _ R3 W2).
  assert (K : forall tr s s', run res s tr = Some s' -> ~ In (Leave i) tr -> (exists r, blocks s i = Some (mkB Open r) /\ r <> Stopped) -> exists r, blocks s' i = Some (mkB Open r) /\ r <> Stopped).
  { clear. induction tr as [|x tr IH]; cbn; intros s s' R N (r & B & E); [injection R as <-; eauto|]. destruct (step res s x) as [s1|] eqn:S; [|discriminate]. apply (IH s1); auto.
    destruct (step_moves _ _ _ _ _ _ S B) as (b' & B' & M). inversion M; subst; try (exfalso; apply N; now left); eauto.
    - match goal with H : mkB _ _ = mkB _ _ |- _ => injection H as <- -> end. eexists. split; [exact B'|discriminate].
    - match goal with H : mkB _ _ = mkB _ _ |- _ => injection H as <- -> end. eexists. split; [exact B'|discriminate]. }
  assert (K2 : exists r, blocks s2 i = Some (mkB Open r) /\ r <> Stopped).
  { apply (K _ _ _ R2); [intros J; apply N, in_or_app; auto|]. eexists. split; [exact B|discriminate]. }
  assert (K3 : exists r, blocks s i = Some (mkB Open r) /\ r <> Stopped) by (apply (K _ _ _ R3); [intros J; apply N, in_or_app; auto|exact K2]).
  clear K. destruct W2 as (_ & p2 & r2 & B2 & W2). destruct W3 as (_ & p3 & r3 & B3 & W3).
  destruct r2 as [|T2|T2 st0 rnd2 due2|]; [contradiction| | |destruct K2 as (? & ? & ?); congruence].
  { specialize (I2 i). cbn in I2. rewrite B2 in I2. discriminate. }
  destruct r3 as [|T3|T3 st3 rnd3 due3|]; [contradiction| | |destruct K3 as (? & ? & ?); congruence].
  { specialize (I3 i). cbn in I3. rewrite B3 in I3. discriminate. }
  assert (Q : st3 = st0).
  { assert (X : forall tr s s', run res s tr = Some s' -> ~ In (Leave i) tr -> (exists p t rnd due, blocks s i = Some (mkB p (Asleep t st0 rnd due))) -> exists p t rnd due, blocks s' i = Some (mkB p (Asleep t st0 rnd due))).
    { clear. induction tr as [|x tr IH]; cbn; intros s s' R N (p & t & rnd & due & B); [injection R as <-; eauto 6|]. destruct (step res s x) as [s1|] eqn:S; [|discriminate]. apply (IH s1); auto.
      destruct (step_moves _ _ _ _ _ _ S B) as (b' & B' & M). inversion M; subst; try (exfalso; apply N; now left); eauto 6; try discriminate.
      match goal with H : mkB _ _ = mkB _ _ |- _ => injection H as <- <- <- <- <- end. eauto 6. }
    destruct (X _ _ _ R3) as (? & ? & ? & ? & Y); [intros J; apply N, in_or_app; auto|eauto 6|]. congruence. }
  subst st3. specialize (I3 i). cbn in I3. rewrite B3 in I3. destruct (due3 <=? now s + res) eqn:D; [discriminate|]. apply Nat.leb_gt in D.
  destruct W2 as (_ & (_ & L2) & _). destruct W3 as (-> & _ & -> & -> & _). rewrite Nat.add_1_r.
  assert (LL : last_time (reports s i) st0 <= last_time (reports s i) (now s2)).
  { unfold last_time. destruct (map fst (reports s i)) as [|a l]; [exact L2|]. clear. revert a. induction l as [|b l IH]; intros a; [auto|]. apply (IH b). }
  lia.
Qed.

(** Exactly the expected reports if the loop is never late: the (n+1)-st at z (n+1) (n+2) / 2 ticks after the block was entered, naming just this duration,
    and those that were due are there. *)
Theorem C77_exact : forall o0 tr1 s1 i p o z tr2 s, run 0 (fresh o0) tr1 = Some s1 -> opts s1 = Some o -> asked o p = VNum z -> (0 < z)%Z ->
  run 0 s1 (Enter i p :: tr2) = Some s -> prompt 0 s1 (Enter i p :: tr2) ->
  (forall n t e, nth_error (reports s i) n = Some (t, e) -> t = now s1 + e /\ 2 * e = Z.to_nat z * ((n + 1) * (n + 2))) /\
  (~ In (Leave i) tr2 -> idle 0 s -> 2 * (now s - now s1) < Z.to_nat z * ((List.length (reports s i) + 1) * (List.length (reports s i) + 2))).
Proof.
  intros o0 tr1 s1 i p o z tr2 s R O A Z R2 PR. cbn [run] in R2. destruct (step 0 s1 (Enter i p)) as [sa|] eqn:S; [|discriminate].
  destruct (watched_enter _ _ _ _ _ _ _ _ _ R O A Z S) as (W & B & NW). assert (PR2 : prompt 0 sa tr2) by (apply PR; exact S).
  assert (E0 : reports sa i = []) by (destruct W as (_ & ? & ? & B' & W); rewrite B in B'; injection B' as <- <-; apply W).
  set (t0 := now s1) in *. set (T := Z.to_nat z) in *. assert (TP : 0 < T) by (unfold T; lia).
  set (ok := fun s => t0 <= now s /\ (forall n t e, nth_error (reports s i) n = Some (t, e) -> t = t0 + e /\ 2 * e = T * ((n + 1) * (n + 2))) /\
     exists ph r, blocks s i = Some (mkB ph r) /\ match r with NoTask => False | Created T' => T' = T /\ now s = t0 /\ reports s i = []
       | Asleep T' st0 rnd due => T' = T /\ st0 = t0 /\ rnd = List.length (reports s i) + 1 /\ 2 * due = 2 * t0 + T * (rnd * (rnd + 1)) /\ now s <= due
       | Stopped => True end).
  assert (OK : ok sa).
  { split; [lia|]. rewrite E0. split; [intros [|n] t e; discriminate|]. eexists _, _. split; [exact B|]. split; [reflexivity|split; [exact NW|reflexivity]]. }
  assert (ST : forall x s s', step 0 s x = Some s' -> (forall n, x = Tick n -> n = 1 /\ idle 0 s) -> ok s -> ok s').
  { clear - TP. intros x s s' S P (K1 & K2 & ph & r & B & K3). split; [apply now_up in S; lia|]. destruct (step_moves _ _ _ _ _ _ S B) as (b' & B' & M). inversion M; subst.
    - rewrite H. split; auto. exists ph, r. split; auto. destruct x as [oo|j q|j|j|n].
      5: { destruct (P n eq_refl) as [-> I]. cbn in S. injection S as <-. cbn. specialize (I i). cbn in I. rewrite B in I. destruct r; auto; try discriminate.
           destruct (due <=? now s + 0) eqn:D; [discriminate|]. apply Nat.leb_gt in D. intuition lia. }
      all: assert (NN : now s' = now s) by (eapply now_step; [exact S|split; [eapply now_up; exact S|intros ?; discriminate]]); rewrite NN; destruct r; auto.
    - injection H1 as -> ->. contradiction.
    - rewrite H0. split; auto. exists Left, Stopped. split; [exact B'|exact I].
    - injection H1 as -> ->. destruct K3 as (-> & K3 & K4). rewrite H0. split; auto. eexists _, _. split; [exact B'|]. rewrite H2, K3, K4. cbn. repeat split; auto; lia.
    - injection H1 as -> ->. destruct K3 as (-> & -> & -> & K5 & K6). assert (D : now s = due) by lia.
      rewrite H0. split.
      + intros n t e N. destruct (Nat.lt_ge_cases n (List.length (reports s i))) as [L|L].
        * rewrite nth_error_app1 in N by auto. now apply K2.
        * rewrite nth_error_app2 in N by auto. destruct (n - List.length (reports s i)) as [|k] eqn:E; [|destruct k; discriminate]. assert (n = List.length (reports s i)) by lia. subst n.
          cbn in N. injection N as <- <-. split; [lia|]. rewrite D. replace (List.length (reports s i) + 1 + 1) with (List.length (reports s i) + 2) in K5 by lia. lia.
      + eexists _, _. split; [exact B'|]. rewrite H2, app_length. cbn [List.length]. repeat split; auto; try lia; nia. }
  assert (F : forall tr s s', run 0 s tr = Some s' -> prompt 0 s tr -> ok s -> ok s').
  { clear - ST. induction tr as [|x tr IH]; cbn; intros s s' R P K; [now injection R as <-|]. destruct (step 0 s x) as [sx|] eqn:S; [|discriminate]. destruct P as [P1 P2]. exact (IH _ _ R (P2 _ eq_refl) (ST _ _ _ S P1 K)). }
  destruct (F _ _ _ R2 PR2 OK) as (K1 & K2 & ph & r & B3 & K3). split; auto. intros NL I.
  assert (K : forall tr s s', run 0 s tr = Some s' -> ~ In (Leave i) tr -> (exists r, blocks s i = Some (mkB Open r) /\ r <> Stopped) -> exists r, blocks s' i = Some (mkB Open r) /\ r <> Stopped).
  { clear. induction tr as [|x tr IH]; cbn; intros s s' R N (r & B & E); [injection R as <-; eauto|]. destruct (step 0 s x) as [s1|] eqn:S; [|discriminate]. apply (IH s1); auto.
    destruct (step_moves _ _ _ _ _ _ S B) as (b' & B' & M). inversion M; subst; try (exfalso; apply N; now left); eauto.
    - match goal with H : mkB _ _ = mkB _ _ |- _ => injection H as <- -> end. eexists. split; [exact B'|discriminate].
    - match goal with H : mkB _ _ = mkB _ _ |- _ => injection H as <- -> end. eexists. split; [exact B'|discriminate]. }
  destruct (K _ _ _ R2 NL) as (r' & B4 & E4); [eexists; split; [exact B|discriminate]|]. rewrite B3 in B4. injection B4 as -> <-. specialize (I i). cbn in I. rewrite B3 in I.
  destruct r; try discriminate; try contradiction. destruct (due <=? now s + 0) eqn:D; [discriminate|]. apply Nat.leb_gt in D. destruct K3 as (-> & -> & -> & K5 & _).
  replace (List.length (reports s i) + 1 + 1) with (List.length (reports s i) + 2) in K5 by lia. lia.
Qed.

(** Without a positive option, or with debugging off, when the block is entered, it is never reported, whatever is set later; and its body is run. *)
Definition unasked (o : option options) (p : site) : Prop :=
  match o with None => True | Some o => asked o p = VNone \/ asked o p = VOther false \/ exists z, asked o p = VNum z /\ (z <= 0)%Z end.
Theorem C77_unasked : forall res o0 tr1 s1 i p tr2 s, run res (fresh o0) tr1 = Some s1 -> unasked (opts s1) p -> run res s1 (Enter i p :: tr2) = Some s ->
  reports s i = [] /\ (~ In (Leave i) tr2 -> exists r, blocks s i = Some (mkB Open r)).
Proof.
  intros res o0 tr1 s1 i p tr2 s R U R2. cbn [run] in R2. destruct (step res s1 (Enter i p)) as [s2|] eqn:S; [|discriminate].
  assert (H : blocks s2 i = Some (mkB Open NoTask) /\ reports s2 i = []).
  { cbn in S. destruct (blocks s1 i) eqn:E; [discriminate|]. injection S as <-. cbn. rewrite Nat.eqb_refl. split; [|apply (fresh_reports _ _ _ _ _ R E)]. f_equal. unfold enter.
    destruct (opts s1) as [o|]; auto. rewrite asked_is. destruct U as [->|[->|(z & -> & Z)]]; auto. destruct (Z.ltb_spec 0 z); auto. lia. }
  destruct H as (B & E).
  assert (G : forall tr s s', run res s tr = Some s' -> (exists ph, blocks s i = Some (mkB ph NoTask)) -> reports s i = [] -> reports s' i = [] /\ exists ph, blocks s' i = Some (mkB ph NoTask)).
  { clear. induction tr as [|x tr IH]; cbn; intros s s' R (ph & B) E; [injection R as <-; eauto|]. destruct (step res s x) as [s1|] eqn:S; [|discriminate].
    destruct (step_moves _ _ _ _ _ _ S B) as (b' & B' & M). apply (IH s1 s' R); inversion M; subst; eauto; try congruence.
    all: match goal with H : mkB _ _ = mkB _ _ |- _ => injection H as ? ?; subst; (contradiction || discriminate) end || discriminate. }
  assert (K : forall tr s s', run res s tr = Some s' -> ~ In (Leave i) tr -> blocks s i = Some (mkB Open NoTask) -> blocks s' i = Some (mkB Open NoTask)).
  { clear. induction tr as [|x tr IH]; cbn; intros s s' R N B; [injection R as <-; eauto|]. destruct (step res s x) as [s1|] eqn:S; [|discriminate]. apply (IH s1); auto.
    destruct (step_moves _ _ _ _ _ _ S B) as (b' & B' & M). inversion M; subst; try (exfalso; apply N; now left); auto; discriminate. }
  split; [eapply G; eauto|]. intros N. exists NoTask. eapply K; eauto.
Qed.

(** DEBUG_OSCAR: not set or 0: off; 1: the defaults; a JSON object with the names of options: the defaults with these values in their places. *)
Definition named (fs : list (string * value)) (k : string) (d : value) : value :=
  fold_left (fun d f => if (fst f =? k)%string then snd f else d) fs d.
Definition option_names : list string := ["actor_call_timeout"; "process_message_timeout"; "actor_lock_timeout"; "log_unhandled_errors"; "log_cycle_send"]%string.
Theorem C77_env : forall (loads : string -> option json), from_env loads None = Off /\ from_env loads (Some "0"%string) = Off /\
  from_env loads (Some "1"%string) = On (mkO (VNum 10) (VNum 30) (VNum 30) (VNum 1) (VNum 1)) /\
  forall c, c <> "0"%string -> c <> "1"%string ->
    match loads c with
    | Some (JObject fs) =>
        if forallb (fun f => existsb (String.eqb (fst f)) option_names) fs
        then from_env loads (Some c) = On (mkO (named fs "actor_call_timeout" (VNum 10)) (named fs "process_message_timeout" (VNum 30)) (named fs "actor_lock_timeout" (VNum 30))
                                               (named fs "log_unhandled_errors" (VNum 1)) (named fs "log_cycle_send" (VNum 1)))
        else from_env loads (Some c) = Crash
    | _ => from_env loads (Some c) = Crash
    end.
Proof.
  intros loads. split; [|split; [|split]]; auto. intros c N0 N1. unfold from_env. destruct (String.eqb_spec c "0"); [contradiction|]. destruct (String.eqb_spec c "1"); [contradiction|].
  destruct (loads c) as [[fs|]|]; auto. unfold defaults.
  assert (G : forall fs a b c d e, if forallb (fun f : string * value => existsb (String.eqb (fst f)) option_names) fs
     then assign_all (mkO a b c d e) fs = Some (mkO (named fs "actor_call_timeout" a) (named fs "process_message_timeout" b) (named fs "actor_lock_timeout" c) (named fs "log_unhandled_errors" d) (named fs "log_cycle_send" e))
     else assign_all (mkO a b c d e) fs = None).
  { clear. induction fs as [|[k v] fs IH]; intros a b c d e; [reflexivity|]. cbn [forallb fst assign_all assign option_names existsb].
    unfold named in *. cbn [fold_left fst snd].
    destruct (String.eqb_spec k "actor_call_timeout"); [subst; cbn [String.eqb Ascii.eqb Bool.eqb orb andb]; apply IH|].
    destruct (String.eqb_spec k "process_message_timeout"); [subst; cbn [String.eqb Ascii.eqb Bool.eqb orb andb]; apply IH|].
    destruct (String.eqb_spec k "actor_lock_timeout"); [subst; cbn [String.eqb Ascii.eqb Bool.eqb orb andb]; apply IH|].
    destruct (String.eqb_spec k "log_unhandled_errors"); [subst; cbn [String.eqb Ascii.eqb Bool.eqb orb andb]; apply IH|].
    destruct (String.eqb_spec k "log_cycle_send"); [subst; cbn [String.eqb Ascii.eqb Bool.eqb orb andb]; apply IH|]. reflexivity. }
  specialize (G fs (VNum 10) (VNum 30) (VNum 30) (VNum 1) (VNum 1)). destruct (forallb _ fs); rewrite G; auto.
Qed.

(** Claim: nothing more is logged once debugging is switched off (and not on again). *)
Definition off_is_off : Prop := forall res o0 tr1 s1 tr2 s, run res (fresh o0) tr1 = Some s1 -> run res s1 (SetOptions None :: tr2) = Some s ->
  (forall o, ~ In (SetOptions (Some o)) tr2) -> log s = log s1.
Theorem C77_off_refuted : ~ off_is_off.
Proof.
  intros C. specialize (C 0 (Some (mkO (VNum 1) VNone VNone VNone VNone)) [Enter 0 AwaitCall; Turn 0] _ [Tick 1; Turn 0] _ eq_refl eq_refl).
  cbn in C. assert (X : forall o, ~ (Tick 1 = SetOptions (Some o) \/ Turn 0 = SetOptions (Some o) \/ False)) by (intros o [J|[J|[]]]; discriminate J).
  specialize (C X). discriminate C.
Qed.
(** It is true of the blocks entered afterwards: C77_unasked. *)

(** Claim: the options change nothing but what is logged: the body of a block is run whatever they are. *)
Definition only_logs : Prop := forall res o0 tr1 s1 i p s, run res (fresh o0) tr1 = Some s1 -> step res s1 (Enter i p) = Some s -> exists r, blocks s i = Some (mkB Open r).
(** DEBUG_OSCAR='{"actor_call_timeout": "10"}': every call to another pool raises TypeError. *)
Theorem C77_only_logs_refuted : ~ only_logs.
Proof.
  intros C. destruct (C 0 (Some (mkO (VOther true) VNone VNone VNone VNone)) [] _ 0 AwaitCall _ eq_refl eq_refl) as (r & E). discriminate E.
Qed.
(** The body is run exactly if the option of its place is a number, None or something that is false. *)
Theorem C77_only_logs_partial : forall res o0 tr1 s1 i p s, run res (fresh o0) tr1 = Some s1 -> step res s1 (Enter i p) = Some s ->
  ((exists r, blocks s i = Some (mkB Open r)) <-> forall o, opts s1 = Some o -> asked o p <> VOther true).
Proof.
  intros res o0 tr1 s1 i p s R S. cbn in S. destruct (blocks s1 i); [discriminate|]. injection S as <-. cbn. rewrite Nat.eqb_refl. unfold enter.
  destruct (opts s1) as [o|]; [|split; [intros; discriminate|eauto]]. rewrite asked_is. split.
  - intros (r & E) o' Q. injection Q as <-. intros Q. rewrite Q in E. discriminate.
  - intros H. specialize (H o eq_refl). destruct (asked o p) as [|z|[]]; eauto; [|congruence]. destruct (Z.ltb 0 z); eauto.
Qed.

Module Demo.
(** A call with a timeout of 2 that lasts for 13 ticks on a loop that is never late: reports after 2, 6 and 12. *)
Definition o2 := Some (mkO (VNum 2) VNone VNone VNone VNone).
Definition tick1 := [Tick 1; Tick 1; Turn 0; Tick 1; Tick 1; Tick 1; Tick 1; Turn 0; Tick 1; Tick 1; Tick 1; Tick 1; Tick 1; Tick 1; Turn 0; Tick 1; Leave 0; Tick 20].
Example demo : option_map (fun s => reports s 0) (run 0 (fresh o2) (Tick 5 :: Enter 0 AwaitCall :: Turn 0 :: tick1)) = Some [(7, 2); (11, 6); (17, 12)].
Proof. vm_compute. reflexivity. Qed.
Lemma idle_upto s n : (forall i, i < n -> step 0 s (Turn i) = None) -> (forall i, n <= i -> blocks s i = None) -> idle 0 s.
Proof. intros H1 H2 i. destruct (Nat.lt_ge_cases i n); [auto|]. cbn. now rewrite H2. Qed.
Example demo_prompt : exists s, run 0 (fresh o2) (Enter 0 AwaitCall :: Turn 0 :: Tick 1 :: Tick 1 :: Turn 0 :: Tick 1 :: nil) = Some s /\
  prompt 0 (fresh o2) [Enter 0 AwaitCall; Turn 0; Tick 1; Tick 1; Turn 0; Tick 1] /\ idle 0 s.
Proof.
  eexists. split; [reflexivity|]. split.
  - repeat (cbn [prompt]; (split; [intros n Q; first [discriminate Q|injection Q as <-; split; [reflexivity|]; apply (idle_upto _ 1); [intros [|i] L; [vm_compute; reflexivity|lia]|intros [|i] L; [lia|reflexivity]]]
                   |let s' := fresh "s" in let E := fresh "E" in intros s' E; vm_compute in E; injection E as <-])). exact I.
  - apply (idle_upto _ 1); [intros [|i] L; [vm_compute; reflexivity|lia]|intros [|i] L; [lia|reflexivity]].
Qed.
(** Left within its timeout. *)
Example demo_fast : option_map (fun s => (now s, reports s 0)) (run 0 (fresh o2) [Enter 0 AwaitCall; Turn 0; Tick 1; Leave 0; Tick 30]) = Some (31, []).
Proof. vm_compute. reflexivity. Qed.
Example demo_env : from_env (fun _ => Some (JObject [("actor_lock_timeout"%string, VNum 5)])) (Some "{...}"%string) = On (mkO (VNum 10) (VNum 30) (VNum 5) (VNum 1) (VNum 1)).
Proof. reflexivity. Qed.
Example demo_env_bad : from_env (fun _ => Some JOther) (Some "true"%string) = Crash.
Proof. reflexivity. Qed.
End Demo.

Print Assumptions C77_not_early.
Print Assumptions C77_quiet.
Print Assumptions C77_fast.
Print Assumptions C77_in_time.
Print Assumptions C77_exact.
Print Assumptions C77_unasked.
Print Assumptions C77_env.
Print Assumptions C77_off_refuted.
Print Assumptions C77_only_logs_refuted.
Print Assumptions C77_only_logs_partial.
