(** * DelayOrderTime: delayed calls whose timers are due at different times are begun in this order *)
From Coq Require Import List Arith Bool Lia.
From Verif Require Import DelayModel DelayProofs.
Import ListNotations.

Section Order.
Context {V : Type}.
Variable res : nat.
Notation st := (@st V).
Notation event := (@event V).
Notation step := (@step V res).
Notation run := (@run V res).
Variables i j di dj LIM : nat.
Hypothesis NIJ : i <> j.
Hypothesis DEL : dj <> 0.

(** The first call's timer is due at [LIM] or before, the second's later. *)
Definition upto_t (s : st) (pi : phase) : Prop :=
  match pi with
  | Created => False
  | Asleep d => d <= LIM /\ ~ In j (begun s) /\ forall tj, tasks s j = Some tj -> match c_phase tj with Created => LIM < now s + dj | Ended _ => True | Asleep d' => LIM < d' | _ => False end
  | Woken => ~ In j (begun s) /\ forall tj, tasks s j = Some tj -> match c_phase tj with Created | Asleep _ | Ended _ => True | Woken => before (ready s) i j | _ => False end
  | _ => In i (begun s) -> In j (begun s) -> before (begun s) i j
  end.
Definition ordered_t (s : st) : Prop :=
  exists ti, tasks s i = Some ti /\ c_delay ti = Some di /\ (forall tj, tasks s j = Some tj -> c_delay tj = Some dj) /\ upto_t s (c_phase ti).

(** A step of another task. *)
Lemma ordt_other (s s' : st) : ordered_t s -> tasks s' i = tasks s i -> tasks s' j = tasks s j -> now s <= now s' -> (before (ready s) i j -> before (ready s') i j) ->
  (begun s' = begun s \/ exists k, begun s' = begun s ++ [k] /\ k <> i /\ k <> j) -> ordered_t s'.
Proof.
  intros (ti & E & D & DJ & U) Ei Ej NW RD BG. exists ti. rewrite Ei, Ej. split; auto. split; auto. split; auto.
  assert (BJ : In j (begun s') -> In j (begun s)). { destruct BG as [->|(k & -> & K1 & K2)]; auto. intros J. apply in_app_or in J. destruct J as [J|[J|[]]]; [auto|congruence]. }
  assert (BI : In i (begun s') -> In i (begun s)). { destruct BG as [->|(k & -> & K1 & K2)]; auto. intros J. apply in_app_or in J. destruct J as [J|[J|[]]]; [auto|congruence]. }
  assert (BB : before (begun s) i j -> before (begun s') i j). { destruct BG as [->|(k & -> & K1 & K2)]; auto. apply before_grow. }
  unfold upto_t in *. destruct (c_phase ti).
  - destruct U.
  - destruct U as (U1 & U2 & U3). split; auto. split; auto. intros tj. rewrite Ej. intros Q. specialize (U3 tj Q). destruct (c_phase tj); auto. lia.
  - destruct U as (U1 & U2). split; auto. intros tj. rewrite Ej. intros Q. specialize (U2 tj Q). destruct (c_phase tj); auto.
  - auto.
  - auto.
  - auto.
Qed.
(** A step of the first call. *)
Lemma ordt_i (s s' : st) ti p : tasks s i = Some ti -> c_delay ti = Some di -> (forall tj, tasks s j = Some tj -> c_delay tj = Some dj) ->
  tasks s' = upd (tasks s) i (Some (phase_to ti p)) -> upto_t s' p -> ordered_t s'.
Proof.
  intros E D DJ ET U. exists (phase_to ti p). rewrite ET, upd_same, upd_other by auto. cbn. auto.
Qed.
Lemma early (s : st) ti : @Inv V s -> tasks s i = Some ti -> c_phase ti = Created \/ (exists d, c_phase ti = Asleep d) \/ c_phase ti = Woken -> ~ In i (begun s).
Proof. intros I E H. apply (notin_begun s i ti I E). intros [Q|[Q|(o & Q)]]; rewrite Q in H; destruct H as [H|[(d & H)|H]]; discriminate. Qed.
Lemma earlyj (s : st) tj : @Inv V s -> tasks s j = Some tj -> c_phase tj = Created \/ (exists d, c_phase tj = Asleep d) \/ c_phase tj = Woken -> ~ In j (begun s).
Proof. intros I E H. apply (notin_begun s j tj I E). intros [Q|[Q|(o & Q)]]; rewrite Q in H; destruct H as [H|[(d & H)|H]]; discriminate. Qed.
(** A step of the second call. *)
Lemma ordt_j (s s' : st) ti tj' : tasks s i = Some ti -> c_delay ti = Some di -> c_delay tj' = Some dj ->
  tasks s' = upd (tasks s) j (Some tj') -> upto_t s' (c_phase ti) -> ordered_t s'.
Proof.
  intros E D DJ ET U. exists ti. rewrite ET, upd_same, upd_other by auto. split; auto. split; auto. split; auto. intros tj Q. now inversion Q; subst.
Qed.
Lemma not_first (q : list nat) (l : list nat) : l = j :: q -> NoDup l -> ~ before l i j.
Proof.
  intros -> N ([|y a] & b & c & Q); inversion Q; subst; [congruence|]. inversion N; subst. apply H1. apply in_or_app. right. right. apply in_or_app. right. now left.
Qed.
Lemma ordt_step (s : st) x s' : @Inv V s -> ordered_t s -> (forall k a d, x = Call j k a d -> d = Some dj /\ LIM < now s + dj) -> step s x = Some s' -> ordered_t s'.
Proof.
  intros I O CJ S. apply step_kinds in S. pose proof O as (ti & Ei & Di & DJ & U).
  destruct S as [k kk a d' E|k u E NE|k u q R E|k u d' E P L M|k u g E P K|k u g E P K|k u g e E P K|n s' ->|a b s' ->|a v s' ->].
  - (* Call *) assert (k <> i) by congruence. destruct (Nat.eq_dec k j) as [->|N].
    + apply (ordt_j s _ ti (mkT kk a d' Created)); auto; [cbn; now apply (CJ kk a d')|].
      assert (NB : ~ In j (begun s)) by (intros J; destruct (v_known s I j J) as (t & Q); congruence).
      assert (IR : c_phase ti = Created \/ c_phase ti = Woken -> In i (ready s)) by (intros Q; apply (v_ready s I); exists ti; split; auto; unfold queued; tauto).
      unfold upto_t in *. cbn. rewrite upd_same. destruct (c_phase ti); auto; try contradiction.
      * destruct U as (U1 & U2 & U3). split; auto. split; auto. intros tj Q. inversion Q; subst. cbn. now apply (CJ kk a d').
      * split; auto. intros tj Q. inversion Q; subst. exact Logic.I.
    + apply (ordt_other s); auto; cbn; try (now rewrite upd_other by auto). intros B. now apply before_grow.
  - (* Cancel *) destruct (Nat.eq_dec k i) as [->|N].
    + assert (u = ti) by congruence. subst u. apply (ordt_i s _ ti (Ended Cancelled)); auto. cbn. intros B1 B2.
      destruct (c_phase ti) eqn:P; try (now apply U); exfalso; apply (early s ti I Ei); rewrite ?P; eauto.
    + destruct (Nat.eq_dec k j) as [->|N'].
      * apply (ordt_j s _ ti (phase_to u (Ended Cancelled))); auto; [cbn; auto|]. unfold upto_t in *. cbn. rewrite upd_same. destruct (c_phase ti); auto; try contradiction.
        -- destruct U as (U1 & U2 & U3). split; auto. split; auto. intros tj Q. inversion Q; subst. exact Logic.I.
        -- split; [tauto|]. intros tj Q. inversion Q; subst. exact Logic.I.
      * apply (ordt_other s); auto; cbn; try (now rewrite upd_other by auto). intros B. apply before_filter; auto; rewrite negb_true_iff, Nat.eqb_neq; auto.
  - (* Run *) assert (ND : NoDup (ready s)) by apply I. pose proof (turn_turns s k u q I R E) as T. destruct (Nat.eq_dec k i) as [->|N].
    + assert (u = ti) by congruence. subst u. rewrite <- (upd_same (tasks s) i (Some ti)) in Ei. rewrite upd_same in Ei.
      assert (NJ : forall t0, In j (begun s ++ [t0]) -> t0 <> j -> In j (begun s)) by (intros t0 J Q; apply in_app_or in J; destruct J as [J|[J|[]]]; [auto|congruence]).
      destruct T as [P D|d' P D NZ|P D|g P K|a P K RA|a P K RA|a P K]; rewrite P in U; unfold upto_t in U.
      * destruct U.
      * destruct U.
      * congruence.
      * apply (ordt_i s _ ti Sending); auto. cbn. intros _ J. exfalso. apply U. now apply (NJ i).
      * apply (ordt_i s _ ti Handed); auto. cbn. intros _ J. exfalso. apply U. now apply (NJ i).
      * destruct (tasks_fail (begin (set_ready s q) i) i ti ActorNotExist) as (o & F1 & F2 & F3 & F4 & _). apply (ordt_i s _ ti (Ended o)); auto. cbn. rewrite F4. cbn. intros _ J. exfalso. apply U. now apply (NJ i).
      * apply (ordt_i s _ ti (Ended Returned)); auto.
    + destruct (Nat.eq_dec k j) as [->|N'].
      * specialize (DJ u E). assert (NF : ~ before (ready s) i j) by now apply (not_first q).
        assert (IQ : c_phase ti = Created \/ c_phase ti = Woken -> In i q).
        { intros Q. assert (J : In i (ready s)) by (apply (v_ready s I); exists ti; split; auto; unfold queued; tauto). rewrite R in J. destruct J; [congruence|auto]. }
        assert (BS : ~ In j (begun s) -> In i (begun s ++ [j]) -> In j (begun s ++ [j]) -> before (begun s ++ [j]) i j).
        { intros _ J _. apply before_snoc. apply in_app_or in J. destruct J as [J|[J|[]]]; [auto|congruence]. }
        destruct T as [P D|d' P D NZ|P D|g P K|a P K RA|a P K RA|a P K].
        -- apply (ordt_j s _ ti (phase_to u Woken)); auto. unfold upto_t in *. cbn. rewrite upd_same. destruct (c_phase ti); auto; try contradiction.
           ++ destruct U as (U1 & U2 & U3). exfalso. assert (dj = 0) by congruence. lia.
           ++ split; [tauto|]. intros tj Q. inversion Q; subst. cbn. apply before_snoc. auto.
        -- apply (ordt_j s _ ti (phase_to u (Asleep (now s + d')))); auto. unfold upto_t in *. cbn. rewrite upd_same. assert (d' = dj) by congruence. subst d'. destruct (c_phase ti); auto; try contradiction.
           ++ destruct U as (U1 & U2 & U3). split; auto. split; auto. intros tj Q. inversion Q; subst. cbn. specialize (U3 u E). rewrite P in U3. exact U3.
           ++ split; [tauto|]. intros tj Q. inversion Q; subst. exact Logic.I.
        -- congruence.
        -- apply (ordt_j s _ ti (phase_to u Sending)); auto. unfold upto_t in *. cbn. pose proof (earlyj s u I E (or_intror (or_intror P))) as NB. destruct (c_phase ti); auto; try contradiction.
           ++ destruct U as (U1 & U2 & U3). specialize (U3 u E). rewrite P in U3. contradiction.
           ++ destruct U as (U1 & U2). specialize (U2 u E). rewrite P in U2. contradiction.
        -- apply (ordt_j s _ ti (phase_to u Handed)); auto. unfold upto_t in *. cbn. pose proof (earlyj s u I E (or_intror (or_intror P))) as NB. destruct (c_phase ti); auto; try contradiction.
           ++ destruct U as (U1 & U2 & U3). specialize (U3 u E). rewrite P in U3. contradiction.
           ++ destruct U as (U1 & U2). specialize (U2 u E). rewrite P in U2. contradiction.
        -- destruct (tasks_fail (begin (set_ready s q) j) j u ActorNotExist) as (o & F1 & F2 & F3 & F4 & F5 & F6 & _).
           apply (ordt_j s _ ti (phase_to u (Ended o))); auto. unfold upto_t in *. rewrite F1, F2, F4, F5. cbn. pose proof (earlyj s u I E (or_intror (or_intror P))) as NB. destruct (c_phase ti); auto; try contradiction.
           ++ destruct U as (U1 & U2 & U3). specialize (U3 u E). rewrite P in U3. contradiction.
           ++ destruct U as (U1 & U2). specialize (U2 u E). rewrite P in U2. contradiction.
        -- apply (ordt_j s _ ti (phase_to u (Ended Returned))); auto. unfold upto_t in *. cbn. rewrite upd_same. destruct (c_phase ti); auto; try contradiction.
           ++ destruct U as (U1 & U2 & U3). specialize (U3 u E). rewrite P in U3. contradiction.
           ++ destruct U as (U1 & U2). specialize (U2 u E). rewrite P in U2. contradiction.
      * assert (RQ : before (ready s) i j -> before q i j) by (rewrite R; now apply before_tl).
        destruct T as [P D|d' P D NZ|P D|g P K|a P K RA|a P K RA|a P K].
        all: try (match goal with |- ordered_t (fail ?s0 ?i0 ?t1 ?e0) => destruct (tasks_fail s0 i0 t1 e0) as (o & F1 & F2 & F3 & F4 & F5 & F6 & _) end).
        all: apply (ordt_other s); rewrite ?F1, ?F2, ?F4, ?F5; cbn; auto; try (now rewrite upd_other by auto); try (intros B; apply before_grow; auto); right; exists k; auto.
  - (* Fire *) destruct (Nat.eq_dec k i) as [->|N].
    + assert (u = ti) by congruence. subst u. rewrite P in U. destruct U as (U1 & U2 & U3). apply (ordt_i s _ ti Woken); auto. cbn. rewrite upd_other by auto. split; auto.
      intros tj Q. specialize (U3 tj Q). destruct (c_phase tj); auto; contradiction.
    + destruct (Nat.eq_dec k j) as [->|N'].
      * apply (ordt_j s _ ti (phase_to u Woken)); auto; [cbn; auto|]. unfold upto_t in *. cbn. rewrite upd_same. destruct (c_phase ti) eqn:PI; auto; try contradiction.
        -- destruct U as (U1 & U2 & U3). specialize (U3 u E). rewrite P in U3. exfalso. assert (J : In (due, i) (timers s)) by (apply (v_timers s I); eauto). apply M in J. lia.
        -- split; [tauto|]. intros tj Q. inversion Q; subst. cbn. apply before_snoc. apply (v_ready s I). exists ti. split; auto. unfold queued. tauto.
      * apply (ordt_other s); auto; cbn; try (now rewrite upd_other by auto). apply before_grow.
  - (* Hand *) destruct (Nat.eq_dec k i) as [->|N]; [assert (u = ti) by congruence; subst u; rewrite P in U; apply (ordt_i s _ ti Handed); auto|].
    destruct (Nat.eq_dec k j) as [->|N'].
    + apply (ordt_j s _ ti (phase_to u Handed)); auto; [cbn; auto|]. unfold upto_t in *. cbn. rewrite upd_same. destruct (c_phase ti); auto; try contradiction.
      * destruct U as (U1 & U2 & U3). specialize (U3 u E). rewrite P in U3. contradiction.
      * destruct U as (U1 & U2). specialize (U2 u E). rewrite P in U2. contradiction.
    + apply (ordt_other s); auto; cbn; now rewrite upd_other by auto.
  - (* Return *) destruct (Nat.eq_dec k i) as [->|N]; [assert (u = ti) by congruence; subst u; rewrite P in U; apply (ordt_i s _ ti (Ended Returned)); auto|].
    destruct (Nat.eq_dec k j) as [->|N'].
    + apply (ordt_j s _ ti (phase_to u (Ended Returned))); auto; [cbn; auto|]. unfold upto_t in *. cbn. rewrite upd_same. destruct (c_phase ti); auto; try contradiction.
      * destruct U as (U1 & U2 & U3). specialize (U3 u E). rewrite P in U3. contradiction.
      * destruct U as (U1 & U2). specialize (U2 u E). rewrite P in U2. contradiction.
    + apply (ordt_other s); auto; cbn; now rewrite upd_other by auto.
  - (* Fail *) destruct (tasks_fail s k u e) as (o & F1 & F2 & F3 & F4 & F5 & F6 & _).
    destruct (Nat.eq_dec k i) as [->|N].
    + assert (u = ti) by congruence. subst u. apply (ordt_i s _ ti (Ended o)); auto. cbn. rewrite F4. destruct P as [P|P]; rewrite P in U; exact U.
    + destruct (Nat.eq_dec k j) as [->|N'].
      * apply (ordt_j s _ ti (phase_to u (Ended o))); auto; [cbn; auto|]. unfold upto_t in *. rewrite F1, F2, F4, F5, upd_same. destruct (c_phase ti); auto; try contradiction.
        -- destruct U as (U1 & U2 & U3). specialize (U3 u E). destruct P as [P|P]; rewrite P in U3; contradiction.
        -- destruct U as (U1 & U2). specialize (U2 u E). destruct P as [P|P]; rewrite P in U2; contradiction.
      * apply (ordt_other s); auto; rewrite ?F1, ?F2, ?F4, ?F5; auto; now rewrite upd_other by auto.
  - apply (ordt_other s); auto. cbn. lia.
  - apply (ordt_other s); auto.
  - apply (ordt_other s); auto.
Qed.
Lemma ordt_run (tr : list event) : (forall k a d, ~ In (Call j k a d) tr) -> forall s s' : st, @Inv V s -> ordered_t s -> run s tr = Some s' -> ordered_t s'.
Proof.
  induction tr as [|x tr IH]; intros CJ s s' I O E; cbn in E; [now inversion E; subst|]. destruct (step s x) as [s1|] eqn:S; [|discriminate].
  apply (IH (fun k a d J => CJ k a d (or_intror J)) s1); auto; [now apply (inv_step res s x)|]. apply (ordt_step s x); auto. intros k a d ->. elim (CJ k a d). now left.
Qed.
End Order.
