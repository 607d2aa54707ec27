(** * DelayEffects: what single steps of delayed calls do, and that every call can come to its end *)
From Coq Require Import List Arith Bool Lia.
From Verif Require Import DelayModel DelayProofs.
Import ListNotations.

Section Effects.
Context {V : Type}.
Variable res : nat.
Notation st := (@st V).
Notation event := (@event V).
Notation step := (@step V res).
Notation run := (@run V res).
Notation Inv := (@Inv V).

Lemma step_moves (s : st) x s' i t : Inv s -> step s x = Some s' -> tasks s i = Some t -> exists t', tasks s' i = Some t' /\ moves res s x i t t'.
Proof.
  intros I S Ei. apply step_kinds in S.
  assert (SAME : tasks s' i = tasks s i -> exists t', tasks s' i = Some t' /\ moves res s x i t t') by (intros Q; exists t; split; [congruence|constructor]).
  destruct S as [k kk a d' E|k u E NE|k u q R E|k u d' E P L M|k u g E P K|k u g E P K|k u g e E P K|n s' ->|a b s' ->|a v s' ->]; try (apply SAME; reflexivity).
  - apply SAME. cbn. rewrite upd_other; auto. congruence.
  - destruct (Nat.eq_dec i k) as [->|N]; [|apply SAME; cbn; now rewrite upd_other]. assert (u = t) by congruence. subst u.
    eexists. split; [cbn; apply upd_same|]. now apply M_cancel.
  - pose proof (turn_turns s k u q I R E) as T. destruct (Nat.eq_dec i k) as [->|N].
    + assert (u = t) by congruence. subst u. assert (H : hd_error (ready s) = Some k) by now rewrite R.
      destruct T as [P D|d' P D NZ|P D|g P K|a P K RA|a P K RA|a P K].
      * eexists. split; [cbn; apply upd_same|]. now apply M_zero.
      * eexists. split; [cbn; apply upd_same|]. now apply M_sleep.
      * destruct (fail_eq (set_ready s q) k t TypeError) as (o & l & -> & [(-> & _)|(-> & _ & Q)]); [|discriminate]. eexists. split; [cbn; apply upd_same|]. now apply M_type.
      * eexists. split; [cbn; apply upd_same|]. now apply (M_send res s Run k t g).
      * eexists. split; [cbn; apply upd_same|]. now apply (M_local res s Run k t a).
      * destruct (fail_eq (begin (set_ready s q) k) k t ActorNotExist) as (o & l & -> & [(-> & _)|(-> & _ & Q)]); [|discriminate]. eexists. split; [cbn; apply upd_same|]. now apply (M_noactor res s Run k t a).
      * eexists. split; [cbn; apply upd_same|]. now apply (M_end res s Run k t a).
    + apply SAME. destruct T as [P D|d' P D NZ|P D|g P K|a P K RA|a P K RA|a P K].
      all: try (match goal with |- tasks (fail ?s0 ?i0 ?t1 ?e0) _ = _ => destruct (tasks_fail s0 i0 t1 e0) as (o & -> & _) end); cbn; now rewrite upd_other.
  - destruct (Nat.eq_dec i k) as [->|N]; [|apply SAME; cbn; now rewrite upd_other]. assert (u = t) by congruence. subst u.
    eexists. split; [cbn; apply upd_same|]. now apply (M_fire res s _ k t d').
  - destruct (Nat.eq_dec i k) as [->|N]; [|apply SAME; cbn; now rewrite upd_other]. assert (u = t) by congruence. subst u.
    eexists. split; [cbn; apply upd_same|]. now apply (M_hand res s _ k t g).
  - destruct (Nat.eq_dec i k) as [->|N]; [|apply SAME; cbn; now rewrite upd_other]. assert (u = t) by congruence. subst u.
    eexists. split; [cbn; apply upd_same|]. now apply (M_return res s _ k t g).
  - destruct (Nat.eq_dec i k) as [->|N].
    + assert (u = t) by congruence. subst u. unfold fail. rewrite K.
      destruct g; [destruct e|]; (eexists; split; [cbn; apply upd_same|]); match goal with |- moves _ _ (Fail k ?e) _ _ _ => try (exact (M_fail res s (Fail k e) k t true e eq_refl P K)); try (exact (M_fail res s (Fail k e) k t false e eq_refl P K)) end.
    + apply SAME. destruct (tasks_fail s k u e) as (o & -> & _). now rewrite upd_other.
Qed.

(** Who begins, who is handed over. *)
Lemma step_begun (s : st) x s' : Inv s -> step s x = Some s' ->
  begun s' = begun s \/ exists k t, x = Run /\ hd_error (ready s) = Some k /\ begun s' = begun s ++ [k] /\ tasks s k = Some t /\ c_phase t = Woken.
Proof.
  intros I S. apply step_kinds in S. destruct S as [k kk a d' E|k u E NE|k u q R E|k u d' E P L M|k u g E P K|k u g E P K|k u g e E P K|n s' ->|a b s' ->|a v s' ->]; auto.
  - pose proof (turn_turns s k u q I R E) as T. assert (H : hd_error (ready s) = Some k) by now rewrite R. destruct T as [P D|d' P D NZ|P D|g P K|a P K RA|a P K RA|a P K]; auto.
    + left. now destruct (tasks_fail (set_ready s q) k u TypeError) as (o & _ & _ & _ & -> & _).
    + right. exists k, u. auto.
    + right. exists k, u. auto.
    + right. exists k, u. destruct (tasks_fail (begin (set_ready s q) k) k u ActorNotExist) as (o & _ & _ & _ & -> & _). auto.
  - left. now destruct (tasks_fail s k u e) as (o & _ & _ & _ & -> & _).
Qed.
Lemma step_out (s : st) x s' : Inv s -> step s x = Some s' ->
  out s' = out s \/ exists k t, tasks s k = Some t /\ out s' = out s ++ [(k, now s, val s (c_arg t))] /\
    ((x = Run /\ exists a, c_kind t = Local a /\ reach s a = true) \/ (x = Hand k /\ exists g, c_kind t = Remote g)).
Proof.
  intros I S. apply step_kinds in S. destruct S as [k kk a d' E|k u E NE|k u q R E|k u d' E P L M|k u g E P K|k u g E P K|k u g e E P K|n s' ->|a b s' ->|a v s' ->]; auto.
  - pose proof (turn_turns s k u q I R E) as T. destruct T as [P D|d' P D NZ|P D|g P K|a P K RA|a P K RA|a P K]; auto.
    + left. now destruct (tasks_fail (set_ready s q) k u TypeError) as (o & _ & _ & -> & _).
    + right. exists k, u. split; auto. split; auto. left. eauto.
    + left. now destruct (tasks_fail (begin (set_ready s q) k) k u ActorNotExist) as (o & _ & _ & -> & _).
  - right. exists k, u. split; auto. split; auto. right. eauto.
  - left. now destruct (tasks_fail s k u e) as (o & _ & _ & -> & _).
Qed.
Lemma step_logged (s : st) x s' : step s x = Some s' -> exists l, logged s' = logged s ++ l.
Proof.
  intros S. apply step_kinds in S.
  assert (F : forall (s0 : st) k t e, exists l, logged (fail s0 k t e) = logged s0 ++ l).
  { intros s0 k t e. unfold fail. destruct (c_kind t) as [[]|]; [destruct e|..]; cbn; eauto; exists []; now rewrite app_nil_r. }
  destruct S as [k kk a d' E|k u E NE|k u q R E|k u d' E P L M|k u g E P K|k u g E P K|k u g e E P K|n s' ->|a b s' ->|a v s' ->]; auto; try (exists []; cbn; now rewrite app_nil_r).
  assert (Z : forall s0 : st, logged s0 = logged s -> exists l, logged s0 = logged s ++ l) by (intros s0 ->; exists []; now rewrite app_nil_r).
  unfold turn. destruct (c_phase u); try (now apply Z).
  - destruct (c_delay u) as [[|d]|]; try (now apply Z). destruct (F (set_ready s q) k u TypeError) as (l & Q). exists l. exact Q.
  - destruct (c_kind u) as [g|a]; [now apply Z|]. cbn [reach begin set_ready]. destruct (reach s a); [now apply Z|]. destruct (F (begin (set_ready s q) k) k u ActorNotExist) as (l & Q). exists l. exact Q.
Qed.
(** A call to another pool that fails is logged. *)
Lemma step_logs (s : st) x s' i t t' e g : Inv s -> step s x = Some s' -> tasks s i = Some t -> tasks s' i = Some t' -> c_kind t = Remote g ->
  (forall o, c_phase t <> Ended o) -> c_phase t' = Ended (Raised e) -> In (i, e) (logged s').
Proof.
  intros I S Ei Ei' K NE PE. destruct (step_moves s x s' i t I S Ei) as (t2 & E2 & M). assert (t2 = t') by congruence. subst t2.
  destruct M; cbn in PE; try (inversion PE; fail); try congruence.
  - subst x. cbn in S. destruct (ready s) as [|k q] eqn:R; [discriminate|]. cbn in H0. inversion H0; subst k. rewrite Ei in S. inversion S. unfold turn. rewrite H1, H2. unfold fail. rewrite K. inversion PE; subst.
    destruct g; cbn; apply in_or_app; right; now left.
  - subst x. cbn in S. rewrite Ei in S. destruct (remote t) eqn:RM; [|discriminate].
    assert (Q : s' = fail s i t e0) by (destruct H0 as [Z|Z]; rewrite Z in S; now inversion S). subst s'. unfold fail. rewrite H1. destruct g0; [destruct e0|]; cbn in PE |- *; inversion PE; subst; apply in_or_app; right; now left.
Qed.

(** ** Coming to an end *)
Lemma keep_started (s s' : st) x i t : Inv s -> step s x = Some s' -> tasks s i = Some t -> (forall j, x <> Cancel j) -> hd_error (ready s) <> Some i -> x <> Fire i -> x <> Hand i -> x <> Return i -> (forall e, x <> Fail i e) ->
  tasks s' i = Some t.
Proof.
  intros I S E N1 N2 N3 N4 N5 N6. destruct (step_moves s x s' i t I S E) as (t' & E' & M). destruct M; subst; try congruence; try (now elim (N1 i)); now elim (N6 e).
Qed.
(** Whoever is in the queue gets a turn. *)
Lemma own_turn i : forall l1 (s : st) t l2, Inv s -> ready s = l1 ++ i :: l2 -> tasks s i = Some t -> exists tr s', run s tr = Some s' /\ Inv s' /\ tasks s' i = Some t /\ hd_error (ready s') = Some i.
Proof.
  induction l1 as [|k l1 IH]; intros s t l2 I R E; [exists [], s; rewrite R; auto|].
  assert (N : k <> i). { assert (ND : NoDup (ready s)) by apply I. rewrite R in ND. cbn in ND. inversion ND; subst. intros ->. apply H1. apply in_or_app. right. now left. }
  assert (J : In k (ready s)) by (rewrite R; now left). apply (v_ready s I) in J. destruct J as (u & Eu & QD).
  assert (S : step s Run = Some (turn (set_ready s (l1 ++ i :: l2)) k u)) by (cbn; rewrite R; cbn; now rewrite Eu).
  pose proof (inv_step res s Run _ I S) as I1.
  assert (E1 : tasks (turn (set_ready s (l1 ++ i :: l2)) k u) i = Some t) by (apply (keep_started s _ Run i t I S E); try discriminate; rewrite R; cbn; congruence).
  assert (R1 : exists l3, ready (turn (set_ready s (l1 ++ i :: l2)) k u) = l1 ++ i :: l3).
  { pose proof (turn_turns s k u (l1 ++ i :: l2) I R Eu) as T. destruct T as [P D|d' P D NZ|P D|g P K|a P K RA|a P K RA|a P K].
    all: try (match goal with |- context [fail ?s0 ?i0 ?t1 ?e0] => destruct (tasks_fail s0 i0 t1 e0) as (o & _ & _ & _ & _ & -> & _) end).
    all: cbn -[app]; rewrite <- ?app_assoc, <- ?app_comm_cons; eauto. }
  destruct R1 as (l3 & R1). destruct (IH _ t l3 I1 R1 E1) as (tr & s' & Q1 & Q2). exists (Run :: tr), s'. cbn [DelayModel.run]. rewrite S. auto.
Qed.
(** Whoever sleeps wakes up. *)
Lemma filter_len {X} (P : X -> bool) (l : list X) : length (filter P l) <= length l.
Proof. induction l as [|x l IH]; cbn; auto. destruct (P x); cbn; lia. Qed.
Lemma wake i : forall n (s : st) t d, length (timers s) <= n -> Inv s -> tasks s i = Some t -> c_phase t = Asleep d -> exists tr s', run s tr = Some s' /\ Inv s' /\ tasks s' i = Some (phase_to t Woken).
Proof.
  induction n as [n IH] using lt_wf_ind. intros s t d L I E P.
  assert (J : In (d, i) (timers s)) by (apply (v_timers s I); eauto).
  assert (MIN : exists d' k, In (d', k) (timers s) /\ forall d'' j, In (d'', j) (timers s) -> d' <= d'').
  { clear -J. induction (timers s) as [|[a b] w IHw]; [destruct J|]. destruct w as [|z w].
    - exists a, b. split; [now left|]. intros d'' j [Q|[]]. inversion Q. lia.
    - assert (exists d' k, In (d', k) (z :: w) /\ forall d'' j, In (d'', j) (z :: w) -> d' <= d'') as (d' & k & H1 & H2).
      { clear. induction w as [|y w IHw] in z |- *; [destruct z as [p q]; exists p, q; split; [now left|]; intros d'' j [Q|[]]; inversion Q; lia|].
        destruct (IHw y) as (d' & k & H1 & H2). destruct z as [p q]. destruct (le_lt_dec p d').
        - exists p, q. split; [now left|]. intros d'' j [Q|Q]; [inversion Q; lia|]. specialize (H2 _ _ Q). lia.
        - exists d', k. split; [now right|]. intros d'' j [Q|Q]; [inversion Q; subst; lia|]. now apply (H2 d'' j). }
      destruct (le_lt_dec a d').
      + exists a, b. split; [now left|]. intros d'' j [Q|Q]; [inversion Q; lia|]. specialize (H2 _ _ Q). lia.
      + exists d', k. split; [now right|]. intros d'' j [Q|Q]; [inversion Q; subst; lia|]. now apply (H2 d'' j). }
  destruct MIN as (d' & k & J' & M).
  set (s1 := mkSt (now s + d') (tasks s) (ready s) (timers s) (begun s) (out s) (reach s) (val s) (logged s)).
  assert (S1 : step s (Tick d') = Some s1) by reflexivity. pose proof (inv_step res s _ s1 I S1) as I1.
  pose proof J' as J2. apply (v_timers s I) in J2. destruct J2 as (u & Eu & Pu).
  set (s2 := set_timers (set_ready (put s1 k (phase_to u Woken)) (ready s1 ++ [k])) (drop_timer k (timers s1))).
  assert (S2 : step s1 (Fire k) = Some s2).
  { cbn. rewrite Eu, Pu. assert (Q1 : (d' <=? now s + d' + res) = true) by (apply Nat.leb_le; lia). rewrite Q1.
    assert (Q2 : forallb (fun x => d' <=? fst x) (timers s) = true) by (apply forallb_forall; intros [d'' j] Q; apply Nat.leb_le; cbn; now apply (M d'' j)). now rewrite Q2. }
  pose proof (inv_step res s1 _ s2 I1 S2) as I2.
  destruct (Nat.eq_dec k i) as [->|N].
  - exists [Tick d'; Fire i], s2. cbn [DelayModel.run]. rewrite S1, S2. split; auto. split; auto. cbn. rewrite upd_same. congruence.
  - assert (LL : length (timers s2) < length (timers s)).
    { cbn. clear -J'. unfold drop_timer. induction (timers s) as [|[a b] w IHw]; [destruct J'|]. cbn. destruct J' as [Q|Q].
      - inversion Q; subst. rewrite Nat.eqb_refl. cbn. pose proof (filter_len (fun x => negb (snd x =? k)) w). lia.
      - specialize (IHw Q). destruct (negb _); cbn; lia. }
    destruct (IH (length (timers s2))) with (s := s2) (t := t) (d := d) as (tr & s' & Q1 & Q2); auto; try lia; [cbn; now rewrite upd_other by auto|].
    exists (Tick d' :: Fire k :: tr), s'. cbn [DelayModel.run]. rewrite S1, S2. auto.
Qed.

(** How a call may end that is not cancelled and to which the network does nothing. *)
Definition fine (s : st) i t o : Prop :=
  (o = Returned /\ In i (ids (out s))) \/ (o = Raised TypeError /\ c_delay t = None) \/ (o = Raised ActorNotExist /\ exists a, c_kind t = Local a).
Definition ends (s : st) i : Prop := exists tr s' t o, run s tr = Some s' /\ tasks s' i = Some t /\ c_phase t = Ended o /\ fine s' i t o.
Lemma ends_run (s s' : st) tr i : run s tr = Some s' -> ends s' i -> ends s i.
Proof. intros R (tr' & s2 & t & o & Q & H). exists (tr ++ tr'), s2, t, o. rewrite run_app, R. auto. Qed.
Lemma ends_step (s s' : st) x i : step s x = Some s' -> ends s' i -> ends s i.
Proof. intros S. apply (ends_run s s' [x]). cbn. now rewrite S. Qed.
Lemma ends_now (s : st) i t o : tasks s i = Some t -> c_phase t = Ended o -> fine s i t o -> ends s i.
Proof. intros. exists [], s, t, o. auto. Qed.
Lemma my_turn (s : st) i t : Inv s -> tasks s i = Some t -> queued t ->
  (forall (s0 : st), Inv s0 -> tasks s0 i = Some t -> hd_error (ready s0) = Some i -> ends s0 i) -> ends s i.
Proof.
  intros I E Q H. assert (J : In i (ready s)) by (apply (v_ready s I); eauto). apply in_split in J. destruct J as (l1 & l2 & R).
  destruct (own_turn i l1 s t l2 I R E) as (tr & s' & R' & I' & E' & H'). apply (ends_run s s' tr); auto.
Qed.
Lemma ends_handed (s : st) i t : Inv s -> tasks s i = Some t -> c_phase t = Handed -> ends s i.
Proof.
  intros I E P. destruct (c_kind t) as [g|a] eqn:K.
  - pose proof (v_handed s I i t E P) as O. destruct t as [k a d p]. cbn in K, P. subst k p. apply (ends_step s (put s i (mkT (Remote g) a d (Ended Returned))) (Return i)); [cbn; now rewrite E|].
    apply (ends_now _ i (mkT (Remote g) a d (Ended Returned)) Returned); auto; [cbn; apply upd_same|]. left. auto.
  - apply (my_turn s i t); auto; [unfold queued; right; right; eauto|]. intros s0 I0 E0 H0. pose proof (v_handed s0 I0 i t E0 P) as O. destruct (ready s0) as [|k q] eqn:R; [discriminate|]. inversion H0; subst k.
    apply (ends_step s0 (put (set_ready s0 q) i (phase_to t (Ended Returned))) Run); [cbn; rewrite R, E0; unfold turn; now rewrite P|].
    apply (ends_now _ i (phase_to t (Ended Returned)) Returned); auto; [cbn; apply upd_same|]. left. auto.
Qed.
Lemma ends_sending (s : st) i t g : Inv s -> tasks s i = Some t -> c_phase t = Sending -> c_kind t = Remote g -> ends s i.
Proof.
  intros I E P K. destruct t as [k a d p]. cbn in K, P. subst k p.
  assert (S : step s (Hand i) = Some (put (hand s i a) i (mkT (Remote g) a d Handed))) by (cbn; now rewrite E).
  apply (ends_step _ _ _ i S). apply (ends_handed _ i (mkT (Remote g) a d Handed)); auto; [now apply (inv_step res s (Hand i))|cbn; apply upd_same].
Qed.
Lemma ends_woken (s : st) i t : Inv s -> tasks s i = Some t -> c_phase t = Woken -> ends s i.
Proof.
  intros I E P. apply (my_turn s i t); auto; [unfold queued; auto|]. clear s I E. intros s I E H. destruct (ready s) as [|k q] eqn:R; [discriminate|]. inversion H; subst k.
  assert (S : step s Run = Some (turn (set_ready s q) i t)) by (cbn; now rewrite R, E). apply (ends_step _ _ _ i S). pose proof (inv_step res s Run _ I S) as I1.
  unfold turn in *. rewrite P in *. destruct (c_kind t) as [g|a] eqn:K.
  - apply (ends_sending _ i (phase_to t Sending) g); auto. cbn. apply upd_same.
  - cbn [reach begin set_ready] in *. destruct (reach s a).
    + apply (ends_handed _ i (phase_to t Handed)); auto. cbn. apply upd_same.
    + unfold fail. rewrite K. apply (ends_now _ i (phase_to t (Ended (Raised ActorNotExist))) (Raised ActorNotExist)); auto; [cbn; apply upd_same|]. right. right. split; auto. cbn. eauto.
Qed.
(** Only a call to another pool is being sent. *)
Definition remote_sends (s : st) : Prop := forall i t, tasks s i = Some t -> c_phase t = Sending -> exists g, c_kind t = Remote g.
Lemma remote_sends_step (s : st) x s' : Inv s -> remote_sends s -> step s x = Some s' -> remote_sends s'.
Proof.
  intros I H S i t' E' P'. destruct (tasks s i) as [t|] eqn:E.
  - destruct (step_moves s x s' i t I S E) as (t2 & E2 & M). assert (t2 = t') by congruence. subst t2. destruct M; cbn in P' |- *; try discriminate; eauto.
  - apply step_kinds in S. destruct S as [k kk a d' Q|k u Q NE|k u q R Q|k u d' Q P L M|k u g Q P K|k u g Q P K|k u g e Q P K|n s' ->|a b s' ->|a v s' ->]; cbn in E'; try congruence.
    all: assert (N : i <> k \/ i = k) by lia; destruct N as [N| ->].
    all: try (rewrite upd_other in E' by auto; congruence); try (rewrite upd_same in E'; inversion E'; subst; cbn in P'; discriminate); try congruence.
    + exfalso. pose proof (turn_turns s k u q I R Q) as T. destruct T as [P D|d' P D NZ|P D|g P K|a P K RA|a P K RA|a P K].
      all: try (match type of E' with context [fail ?s0 ?i0 ?t1 ?e0] => destruct (tasks_fail s0 i0 t1 e0) as (o & F & _); rewrite F in E' end).
      all: cbn in E'; rewrite upd_other in E' by auto; congruence.
    + destruct (tasks_fail s k u e) as (o & F & _). rewrite F, upd_other in E' by auto. congruence.
Qed.
Lemma remote_sends_run (tr : list event) : forall s s' : st, Inv s -> remote_sends s -> run s tr = Some s' -> remote_sends s'.
Proof.
  induction tr as [|x tr IH]; intros s s' I H E; cbn in E; [now inversion E; subst|]. destruct (step s x) as [s1|] eqn:S; [|discriminate].
  apply (IH s1); auto; [now apply (inv_step res s x)|now apply (remote_sends_step s x)].
Qed.
Lemma can_finish (s : st) i t : Inv s -> remote_sends s -> tasks s i = Some t -> (forall o, c_phase t <> Ended o) -> ends s i.
Proof.
  intros I RS E NE. destruct (c_phase t) as [|d| | | |o] eqn:P.
  - apply (my_turn s i t); auto; [unfold queued; auto|]. clear s I RS E NE. intros s I E H. destruct (ready s) as [|k q] eqn:R; [discriminate|]. inversion H; subst k.
    assert (S : step s Run = Some (turn (set_ready s q) i t)) by (cbn; now rewrite R, E). apply (ends_step _ _ _ i S). pose proof (inv_step res s Run _ I S) as I1.
    unfold turn in *. rewrite P in *. destruct (c_delay t) as [[|d]|] eqn:D.
    + apply (ends_woken _ i (phase_to t Woken)); auto. cbn. apply upd_same.
    + destruct (wake i (length (timers (set_timers (put (set_ready s q) i (phase_to t (Asleep (now (set_ready s q) + Datatypes.S d)))) (timers (set_ready s q) ++ [(now (set_ready s q) + Datatypes.S d, i)])))) _ (phase_to t (Asleep (now s + Datatypes.S d))) (now s + Datatypes.S d) (le_n _) I1) as (tr & s' & R' & I' & E');
        [cbn; apply upd_same|reflexivity|].
      apply (ends_run _ s' tr i R'). now apply (ends_woken s' i (phase_to (phase_to t (Asleep (now s + Datatypes.S d))) Woken)).
    + destruct (tasks_fail (set_ready s q) i t TypeError) as (o & F & _). assert (O : o = Raised TypeError). { unfold fail in F. destruct (c_kind t) as [[]|]; cbn in F; apply (f_equal (fun m => m i)) in F; rewrite !upd_same in F; unfold phase_to in F; congruence. }
      subst o. apply (ends_now _ i (phase_to t (Ended (Raised TypeError))) (Raised TypeError)); auto; [rewrite F; apply upd_same|]. right. left. auto.
  - destruct (wake i (length (timers s)) s t d (le_n _) I E P) as (tr & s' & R' & I' & E'). apply (ends_run s s' tr i R'). now apply (ends_woken s' i (phase_to t Woken)).
  - now apply (ends_woken s i t).
  - destruct (RS i t E P) as (g & K). now apply (ends_sending s i t g).
  - now apply (ends_handed s i t).
  - now elim (NE o).
Qed.
End Effects.
