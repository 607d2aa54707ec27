(** * DelayProps: C76, delayed calls

    Reading guide.  [run res (fresh v) tr = Some s]: the events [tr] (calls of [tell_delay], tasks
    that get their turn, timers, the passing of time, messages that are written or fail, cancelling,
    arguments that change - in any order the event loop allows) are possible and lead to [s].
    [Call i k a d]: task [i] is made by [tell_delay(a, delay=d)] on a reference to an actor of
    another pool ([Remote ignore_conn_fail]) or of this one ([Local actor]).  [begun s]: the tasks
    that have called [send] or [tell], in this order; [out s]: what was handed over (task, time,
    content of the arguments); [result s i]: the outcome of the task, if it has ended. *)
From Coq Require Import List Arith Bool Lia.
From Verif Require Import DelayModel DelayProofs DelayOrder DelayOrderTime DelayEffects.
Import ListNotations.

Section Props.
Context {V : Type}.
Variable res : nat.
Notation st := (@st V).
Notation event := (@event V).
Notation run := (@run V res).
Notation step := (@step V res).

Definition result (s : st) (i : nat) : option outcome :=
  match tasks s i with Some t => match c_phase t with Ended o => Some o | _ => None end | None => None end.
Definition delivered (s : st) (i : nat) : Prop := exists t x, In (i, t, x) (out s).
Lemma delivered_ids (s : st) i : delivered s i <-> In i (ids (out s)).
Proof.
  unfold delivered, ids. rewrite in_map_iff. split; [intros (t & x & J); now exists (i, t, x)|]. intros ([[j t] x] & Q & J). cbn in Q. subst j. eauto.
Qed.
Lemma inv_split v (tr1 tr2 : list event) (s : st) : run (fresh v) (tr1 ++ tr2) = Some s -> exists s1, run (fresh v) tr1 = Some s1 /\ run s1 tr2 = Some s /\ @Inv V s1.
Proof. rewrite run_app. destruct (run (fresh v) tr1) as [s1|] eqn:E; [|discriminate]. intros R. exists s1. split; auto. split; auto. now apply (inv_reached res v tr1). Qed.
Lemma after_call (s : st) i k a d tr (s' : st) : run s (Call i k a d :: tr) = Some s' ->
  tasks s i = None /\ run (set_ready (put s i (mkT k a d Created)) (ready s ++ [i])) tr = Some s' /\ step s (Call i k a d) = Some (set_ready (put s i (mkT k a d Created)) (ready s ++ [i])).
Proof. cbn. destruct (tasks s i); [discriminate|auto]. Qed.

(** ** At most once, and nothing is taken back *)
Theorem C76_at_most_once : forall (v : nat -> V) (tr : list event) (s : st), run (fresh v) tr = Some s -> NoDup (map (fun x => fst (fst x)) (out s)) /\ NoDup (begun s).
Proof. intros v tr s E. apply inv_reached in E. split; apply E. Qed.
Lemma out_grows (tr : list event) : forall s s' : st, @Inv V s -> run s tr = Some s' -> exists l, out s' = out s ++ l.
Proof.
  induction tr as [|x tr IH]; intros s s' I E; cbn in E; [inversion E; subst; exists []; now rewrite app_nil_r|]. destruct (step s x) as [s1|] eqn:S; [|discriminate].
  destruct (IH s1 s' (inv_step res s x s1 I S) E) as (l & ->). destruct (step_out res s x s1 I S) as [->|(k & t & _ & -> & _)]; [eauto|]. rewrite <- app_assoc. eauto.
Qed.
Theorem C76_kept : forall (v : nat -> V) (tr1 tr2 : list event) (s1 s : st), run (fresh v) tr1 = Some s1 -> run s1 tr2 = Some s -> exists l, out s = out s1 ++ l.
Proof. intros v tr1 tr2 s1 s E1 E2. apply (out_grows tr2); auto. now apply (inv_reached res v tr1). Qed.

(** ** Not before its time *)
Theorem C76_not_early : forall (v : nat -> V) tr1 s1 i k a d tr2 s t x,
  run (fresh v) tr1 = Some s1 -> run s1 (Call i k a (Some d) :: tr2) = Some s -> In (i, t, x) (out s) -> now s1 + d <= t + res.
Proof.
  intros v tr1 s1 i k a d tr2 s t x E1 E2 J. pose proof (inv_reached res v tr1 s1 E1) as I1. apply after_call in E2. destruct E2 as (N & E2 & S).
  pose proof (inv_step res s1 _ _ I1 S) as I2.
  assert (T : timely res i (now s1) d (set_ready (put s1 i (mkT k a (Some d) Created)) (ready s1 ++ [i]))).
  { split; [cbn; lia|]. split; [exists (mkT k a (Some d) Created); cbn; now rewrite upd_same|]. cbn. intros t' v' J'. exfalso.
    assert (Q : In i (ids (out s1))) by (apply delivered_ids; exists t', v'; auto). apply (v_out s1 I1) in Q. destruct Q as (Q & _). apply (v_known s1 I1) in Q. destruct Q as (t2 & Q). congruence. }
  apply (timely_run res i (now s1) d tr2 _ s I2 T) in E2. destruct E2 as (_ & _ & E2). now apply (E2 t x).
Qed.

(** ** Not too late *)
Definition early (i d : nat) (s : st) : Prop := In i (begun s) \/ exists t, tasks s i = Some t /\ c_delay t = Some d /\
  match c_phase t with Created | Woken => True | Asleep due => due <= now s + d | _ => False end.
Lemma begun_stays (s s' : st) x i : @Inv V s -> step s x = Some s' -> In i (begun s) -> In i (begun s').
Proof. intros I S J. destruct (step_begun res s x s' I S) as [->|(k & t & _ & _ & -> & _)]; auto. apply in_or_app. now left. Qed.
Lemma now_grows (s s' : st) x : step s x = Some s' -> now s <= now s'.
Proof.
  intros S. apply step_kinds in S. destruct S as [k kk a d' E|k u E NE|k u q R E|k u d' E P L M|k u g E P K|k u g E P K|k u g e E P K|n s' ->|a b s' ->|a v s' ->]; cbn; auto; try lia.
  - unfold turn. destruct (c_phase u); auto.
    + destruct (c_delay u) as [[|d]|]; auto. destruct (tasks_fail (set_ready s q) k u TypeError) as (o & _ & -> & _). auto.
    + destruct (c_kind u); auto. cbn [reach begin set_ready]. destruct (reach s a); auto. destruct (tasks_fail (begin (set_ready s q) k) k u ActorNotExist) as (o & _ & -> & _). auto.
  - destruct (tasks_fail s k u e) as (o & _ & -> & _). auto.
Qed.
Lemma woken_begins (s s' : st) i t : @Inv V s -> step s Run = Some s' -> hd_error (ready s) = Some i -> tasks s i = Some t -> c_phase t = Woken -> In i (begun s').
Proof.
  intros I S H E P. cbn in S. destruct (ready s) as [|k q] eqn:R; [discriminate|]. inversion H; subst k. rewrite E in S. inversion S. unfold turn. rewrite P.
  destruct (c_kind t) as [g|a]; [cbn; apply in_or_app; right; now left|]. cbn [reach begin set_ready]. destruct (reach s a); [cbn; apply in_or_app; right; now left|].
  destruct (tasks_fail (begin (set_ready s q) i) i t ActorNotExist) as (o & _ & _ & _ & -> & _). cbn. apply in_or_app. right. now left.
Qed.
Lemma early_step i d (s : st) x s' : @Inv V s -> x <> Cancel i -> early i d s -> step s x = Some s' -> early i d s'.
Proof.
  intros I NC [B|(t & E & D & P)] S; [left; now apply (begun_stays s s' x)|]. pose proof (now_grows s s' x S) as NG.
  destruct (step_moves res s x s' i t I S E) as (t' & E' & M). destruct M; subst; try contradiction; try congruence.
  all: try (left; now apply (woken_begins s s' i t)).
  all: try match goal with Q : c_phase _ = _ |- _ => rewrite Q in P; try contradiction end.
  all: try match goal with H : _ \/ _ |- _ => destruct H as [Q|Q]; rewrite Q in P; contradiction end.
  all: right; eexists; (split; [exact E'|]); cbn; (split; [auto|]); auto.
  - destruct (c_phase t); auto. lia.
  - assert (d0 = d) by congruence. lia.
Qed.
Lemma early_run i d (tr : list event) : ~ In (Cancel i) tr -> forall s s' : st, @Inv V s -> early i d s -> run s tr = Some s' -> early i d s'.
Proof.
  induction tr as [|x tr IH]; intros NC s s' I B E; cbn in E; [now inversion E; subst|]. destruct (step s x) as [s1|] eqn:S; [|discriminate].
  apply (IH (fun J => NC (or_intror J)) s1); auto; [now apply (inv_step res s x)|]. apply (early_step i d s x); auto. intros ->. apply NC. now left.
Qed.
Definition waits (i T : nat) (s : st) : Prop := In i (begun s) \/ exists t, tasks s i = Some t /\ match c_phase t with Woken => True | Asleep due => due <= T | _ => False end.
Lemma waits_step i T (s : st) x s' : @Inv V s -> x <> Cancel i -> waits i T s -> step s x = Some s' -> waits i T s'.
Proof.
  intros I NC [B|(t & E & P)] S; [left; now apply (begun_stays s s' x)|].
  destruct (step_moves res s x s' i t I S E) as (t' & E' & M). destruct M; subst; try contradiction; try congruence.
  all: try (left; now apply (woken_begins s s' i t)).
  all: try match goal with Q : c_phase _ = _ |- _ => rewrite Q in P; try contradiction end.
  all: try match goal with H : _ \/ _ |- _ => destruct H as [Q|Q]; rewrite Q in P; contradiction end.
  all: right; eexists; (split; [exact E'|]); cbn; auto.
Qed.
Lemma waits_run i T (tr : list event) : ~ In (Cancel i) tr -> forall s s' : st, @Inv V s -> waits i T s -> run s tr = Some s' -> waits i T s'.
Proof.
  induction tr as [|x tr IH]; intros NC s s' I B E; cbn in E; [now inversion E; subst|]. destruct (step s x) as [s1|] eqn:S; [|discriminate].
  apply (IH (fun J => NC (or_intror J)) s1); auto; [now apply (inv_step res s x)|]. apply (waits_step i T s x); auto. intros ->. apply NC. now left.
Qed.
(** The loop has nothing to do before the next timer. *)
Definition idle (s : st) : Prop := ready s = [] /\ forall due j, In (due, j) (timers s) -> now s + res < due.
(** If the loop got through its queue at some moment after the call, and has nothing to do at
    some moment a delay later, the call has been begun unless it was cancelled. *)
Theorem C76_in_time : forall (v : nat -> V) tr1 s1 i k a d tr2 s2 tr3 s,
  run (fresh v) tr1 = Some s1 -> run s1 (Call i k a (Some d) :: tr2) = Some s2 -> ready s2 = [] ->
  run s2 tr3 = Some s -> idle s -> now s2 + d <= now s + res -> ~ In (Cancel i) (tr2 ++ tr3) -> In i (begun s).
Proof.
  intros v tr1 s1 i k a d tr2 s2 tr3 s E1 E2 R2 E3 (R & TM) LE NC. pose proof (inv_reached res v tr1 s1 E1) as I1. apply after_call in E2. destruct E2 as (N & E2 & S).
  pose proof (inv_step res s1 _ _ I1 S) as I1'. pose proof (inv_run res tr2 _ s2 I1' E2) as I2. pose proof (inv_run res tr3 s2 s I2 E3) as I.
  assert (NC2 : ~ In (Cancel i) tr2) by (intros J; apply NC; apply in_or_app; auto). assert (NC3 : ~ In (Cancel i) tr3) by (intros J; apply NC; apply in_or_app; auto).
  assert (B2 : early i d s2).
  { apply (early_run i d tr2 NC2 _ s2 I1'); auto. right. exists (mkT k a (Some d) Created). cbn. rewrite upd_same. auto. }
  assert (W2 : waits i (now s2 + d) s2).
  { destruct B2 as [B|(t & E & D & P)]; [now left|]. right. exists t. split; auto. destruct (c_phase t) eqn:PH; auto.
    assert (J : In i (ready s2)) by (apply (v_ready s2 I2); exists t; unfold queued; auto). rewrite R2 in J. destruct J. }
  destruct (waits_run i _ tr3 NC3 s2 s I2 W2 E3) as [B|(t & E & P)]; auto. exfalso. destruct (c_phase t) as [|due| | | |] eqn:PH; try contradiction.
  - assert (J : In (due, i) (timers s)) by (apply (v_timers s I); eauto). apply TM in J. lia.
  - assert (J : In i (ready s)) by (apply (v_ready s I); exists t; unfold queued; auto). rewrite R in J. destruct J.
Qed.

(** ** What is handed over *)
Lemma task_call v (tr : list event) (s : st) i t : run (fresh v) tr = Some s -> tasks s i = Some t -> In (Call i (c_kind t) (c_arg t) (c_delay t)) tr.
Proof.
  revert s t. induction tr as [|x tr IH] using rev_ind; intros s t E T; [cbn in E; inversion E; subst; discriminate|].
  destruct (inv_split v tr [x] s E) as (s1 & E1 & E2 & I1). cbn in E2. destruct (step s1 x) as [s2|] eqn:S; [|discriminate]. inversion E2; subst s2. apply in_or_app.
  destruct (tasks s1 i) as [t1|] eqn:T1.
  - left. destruct (step_moves res s1 x s i t1 I1 S T1) as (t' & E' & M). assert (t' = t) by congruence. subst t'.
    specialize (IH s1 t1 E1 T1). destruct M; auto.
  - right. left. destruct x as [j k a d|j| |j|n|j|j|j e|a b|a w]; cbn in S.
    2-10: exfalso.
    + destruct (tasks s1 j) eqn:TJ; [discriminate|]. inversion S; subst s. cbn in T. destruct (Nat.eq_dec i j) as [->|N]; [|rewrite upd_other in T; congruence]. rewrite upd_same in T. inversion T; subst. reflexivity.
    + destruct (tasks s1 j) as [u|] eqn:TJ; [|discriminate]. assert (i <> j) by congruence. destruct (c_phase u); inversion S; subst s; cbn in T; rewrite upd_other in T; congruence.
    + destruct (ready s1) as [|j q] eqn:R; [discriminate|]. destruct (tasks s1 j) as [u|] eqn:TJ; [|discriminate]. inversion S; subst s. assert (i <> j) by congruence.
      pose proof (turn_turns s1 j u q I1 R TJ) as TT. destruct TT as [P D|d' P D NZ|P D|g P K|a P K RA|a P K RA|a P K].
      all: try (match type of T with context [fail ?s0 ?i0 ?t1 ?e0] => destruct (tasks_fail s0 i0 t1 e0) as (o & F & _); rewrite F in T end).
      all: cbn in T; rewrite upd_other in T by auto; congruence.
    + destruct (tasks s1 j) as [u|] eqn:TJ; [|discriminate]. assert (i <> j) by congruence. destruct (c_phase u); try discriminate. destruct (_ && _); inversion S; subst s; cbn in T; rewrite upd_other in T; congruence.
    + inversion S; subst s. cbn in T. congruence.
    + destruct (tasks s1 j) as [[[g|] a d [| | | | |]]|] eqn:TJ; try discriminate. assert (i <> j) by congruence. inversion S; subst s; cbn in T; rewrite upd_other in T; congruence.
    + destruct (tasks s1 j) as [[[g|] a d [| | | | |]]|] eqn:TJ; try discriminate. assert (i <> j) by congruence. inversion S; subst s; cbn in T; rewrite upd_other in T; congruence.
    + destruct (tasks s1 j) as [u|] eqn:TJ; [|discriminate]. assert (i <> j) by congruence. destruct (remote u); [|discriminate].
      assert (Q : s = fail s1 j u e) by (destruct (c_phase u); now inversion S). subst s. destruct (tasks_fail s1 j u e) as (o & F & _). rewrite F, upd_other in T; congruence.
    + inversion S; subst s. cbn in T. congruence.
    + inversion S; subst s. cbn in T. congruence.
Qed.
(** Only what was called is handed over, to its actor, with what the arguments contain at that
    moment; a call on an actor of this pool while the actor is there. *)
Theorem C76_content : forall (v : nat -> V) (tr : list event) (s : st) i t x, run (fresh v) tr = Some s -> In (i, t, x) (out s) ->
  exists tr1 e tr2 s1 k a d, tr = tr1 ++ e :: tr2 /\ run (fresh v) tr1 = Some s1 /\ now s1 = t /\ val s1 a = x /\ In (Call i k a (Some d)) tr1 /\
    match k with Remote _ => e = Hand i | Local ac => e = Run /\ reach s1 ac = true end.
Proof.
  intros v tr. induction tr as [|e tr IH] using rev_ind; intros s i t x E J; [cbn in E; inversion E; subst; destruct J|].
  destruct (inv_split v tr [e] s E) as (s1 & E1 & E2 & I1). cbn in E2. destruct (step s1 e) as [s2|] eqn:S; [|discriminate]. inversion E2; subst s2.
  assert (OLD : In (i, t, x) (out s1) -> exists tr1 e0 tr2 s2 k a d, tr ++ [e] = tr1 ++ e0 :: tr2 /\ run (fresh v) tr1 = Some s2 /\ now s2 = t /\ val s2 a = x /\ In (Call i k a (Some d)) tr1 /\
    match k with Remote _ => e0 = Hand i | Local ac => e0 = Run /\ reach s2 ac = true end).
  { intros J1. destruct (IH s1 i t x E1 J1) as (tr1 & e0 & tr2 & s2 & k & a & d & -> & H). exists tr1, e0, (tr2 ++ [e]), s2, k, a, d. split; auto. now rewrite <- app_assoc. }
  destruct (step_out res s1 e s I1 S) as [Q|(k & u & TK & Q & H)]; rewrite Q in J; auto. apply in_app_or in J. destruct J as [J|[J|[]]]; auto. inversion J; subst k t x.
  pose proof (task_call v tr s1 i u E1 TK) as C.
  assert (D : exists d, c_delay u = Some d).
  { destruct (c_delay u) as [d|] eqn:D; [eauto|]. exfalso. clear -E1 TK D H I1 S Q. assert (NB : forall (tr : list (@DelayModel.event V)) (s : st) u, run (fresh v) tr = Some s -> tasks s i = Some u -> c_delay u = None -> c_phase u = Created \/ exists o, c_phase u = Ended o).
    { clear. intros tr. induction tr as [|e tr IH] using rev_ind; intros s u E T D; [cbn in E; inversion E; subst; discriminate|].
      destruct (inv_split v tr [e] s E) as (s1 & E1 & E2 & I1). cbn in E2. destruct (step s1 e) as [s2|] eqn:S; [|discriminate]. inversion E2; subst s2.
      destruct (tasks s1 i) as [u1|] eqn:T1.
      - destruct (step_moves res s1 e s i u1 I1 S T1) as (u' & E' & M). assert (u' = u) by congruence. subst u'.
        assert (D1 : c_delay u1 = None) by (destruct M; auto). specialize (IH s1 u1 E1 T1 D1).
        destruct M; cbn in *; eauto; try congruence; destruct IH as [P|(o & P)]; congruence.
      - left. pose proof (task_call v (tr ++ [e]) s i u E T) as C. apply in_app_or in C. destruct C as [C|[C|[]]].
        + exfalso. clear -E1 C T1. revert s1 E1 T1. induction tr as [|x tr IH] using rev_ind; intros s1 E1 T1; [destruct C|].
          destruct (inv_split v tr [x] s1 E1) as (s0 & E0 & E2 & I0). cbn in E2. destruct (step s0 x) as [s2|] eqn:S; [|discriminate]. inversion E2; subst s2.
          destruct (tasks s0 i) as [u0|] eqn:T0; [destruct (step_moves res s0 x s1 i u0 I0 S T0) as (u' & E' & _); congruence|].
          apply in_app_or in C. destruct C as [C|[C|[]]]; [now apply (IH C s0)|]. subst x. cbn in S. rewrite T0 in S. inversion S; subst s1. cbn in T1. now rewrite upd_same in T1.
        + subst e. cbn in S. rewrite T1 in S. inversion S; subst s. cbn in T. rewrite upd_same in T. now inversion T. }
    pose proof (NB tr s1 u E1 TK D) as P.
    destruct H as [(-> & ac & K & RA)|(-> & g & K)]; cbn in S.
    - destruct (ready s1) as [|j q] eqn:R; [discriminate|]. destruct (tasks s1 j) as [u'|] eqn:TJ; [|discriminate].
      pose proof (turn_turns s1 j u' q I1 R TJ) as TT. inversion S as [SS]. rewrite SS in TT. destruct TT as [P' D'|d' P' D' NZ|P' D'|g P' K'|a P' K' RA'|a P' K' RA'|a P' K'].
      all: try (match type of Q with context [fail ?s0 ?i0 ?t1 ?e0] => destruct (tasks_fail s0 i0 t1 e0) as (o & _ & _ & F & _); rewrite F in Q end).
      all: cbn in Q; try (apply (f_equal (@length _)) in Q; rewrite app_length in Q; cbn in Q; lia).
      apply app_inv_head in Q. inversion Q; subst j. assert (u' = u) by congruence. subst u'. destruct P as [P|(o & P)]; congruence.
    - rewrite TK in S. destruct u as [k a d p]. cbn in *. subst k. destruct p; try discriminate; destruct P as [P|(o & P)]; congruence. }
  destruct D as (d & D). rewrite D in C. exists tr, e, [], s1, (c_kind u), (c_arg u), d. split; auto. split; auto. split; auto. split; auto. split; auto.
  destruct H as [(-> & ac & -> & RA)|(-> & g & ->)]; auto.
Qed.
(** Arguments that are not changed after the call arrive as they were. *)
Theorem C76_unchanged_partial : forall (v : nat -> V) tr1 s1 i k a d tr2 s t x,
  run (fresh v) tr1 = Some s1 -> run s1 (Call i k a d :: tr2) = Some s -> (forall w, ~ In (Change a w) tr2) -> In (i, t, x) (out s) -> x = val s1 a.
Proof.
  intros v tr1 s1 i k a d tr2 s t x E1 E2 NC J. pose proof (inv_reached res v tr1 s1 E1) as I1. apply after_call in E2. destruct E2 as (N & E2 & S). pose proof (inv_step res s1 _ _ I1 S) as I2.
  assert (H : forall (tr : list (@DelayModel.event V)) (s0 : st) s', (forall w, ~ In (Change a w) tr) -> @Inv V s0 -> val s0 a = val s1 a -> (exists u, tasks s0 i = Some u /\ c_arg u = a) -> (forall t x, In (i, t, x) (out s0) -> x = val s1 a) ->
    run s0 tr = Some s' -> forall t x, In (i, t, x) (out s') -> x = val s1 a).
  { clear. intros tr. induction tr as [|e tr IH]; intros s0 s' NC I VA (u & T & AR) O E; cbn in E; [now inversion E; subst|]. destruct (step s0 e) as [s2|] eqn:S; [|discriminate].
    apply (IH s2 s'); auto.
    - intros w J. apply (NC w). now right.
    - now apply (inv_step res s0 e).
    - assert (NE : forall w, e <> Change a w) by (intros w ->; apply (NC w); now left). clear -S NE VA. apply step_kinds in S.
      destruct S as [k kk a' d' E|k u E NE'|k u q R E|k u d' E P L M|k u g E P K|k u g E P K|k u g e E P K|n s' ->|a' b s' ->|a' v s' ->]; auto.
      + rewrite <- VA. clear VA. assert (X : val (turn (set_ready s0 q) k u) = val s0); [|now rewrite X]. unfold turn. destruct (c_phase u); auto.
        * destruct (c_delay u) as [[|d]|]; auto. destruct (tasks_fail (set_ready s0 q) k u TypeError) as (o & _ & _ & _ & _ & _ & _ & ->). auto.
        * destruct (c_kind u); auto. cbn [reach begin set_ready]. destruct (reach s0 a0); auto. destruct (tasks_fail (begin (set_ready s0 q) k) k u ActorNotExist) as (o & _ & _ & _ & _ & _ & _ & ->). auto.
      + destruct (tasks_fail s0 k u e) as (o & _ & _ & _ & _ & _ & _ & ->). auto.
      + cbn. rewrite upd_other; auto. intros ->. now elim (NE v).
    - destruct (step_moves res s0 e s2 i u I S T) as (u' & T' & M). exists u'. split; auto. destruct M; auto.
    - intros t x J. destruct (step_out res s0 e s2 I S) as [Q|(k & u' & TK & Q & _)]; rewrite Q in J; [eauto|]. apply in_app_or in J. destruct J as [J|[J|[]]]; [eauto|].
      inversion J; subst k x. assert (u' = u) by congruence. subst u'. now rewrite AR. }
  apply (H tr2 (set_ready (put s1 i (mkT k a d Created)) (ready s1 ++ [i])) s) with (t := t); auto.
  - exists (mkT k a d Created). cbn. rewrite upd_same. auto.
  - cbn. intros t' x' J'. exfalso. assert (Q : In i (ids (out s1))) by (apply delivered_ids; exists t', x'; auto). apply (v_out s1 I1) in Q. destruct Q as (Q & _). apply (v_known s1 I1) in Q. destruct Q as (t2 & Q). congruence.
Qed.

(** ** In which order *)
Lemma one_call (tr : list event) : forall (s s' : st) i u, @Inv V s -> tasks s i = Some u -> run s tr = Some s' -> forall k a d, ~ In (Call i k a d) tr.
Proof.
  induction tr as [|x tr IH]; intros s s' i u I T E k a d; [intros []|]. cbn in E. destruct (step s x) as [s1|] eqn:S; [|discriminate].
  destruct (step_moves res s x s1 i u I S T) as (u' & T' & _). intros [->|J]; [cbn in S; rewrite T in S; discriminate|]. apply (IH s1 s' i u' (inv_step res s x s1 I S) T' E k a d J).
Qed.
(** Of two calls, the one made first is begun first if its delay is shorter, or if both have none. *)
Theorem C76_order_partial : forall (v : nat -> V) tr1 i ki ai di tr2 j kj aj dj tr3 s,
  run (fresh v) (tr1 ++ Call i ki ai (Some di) :: tr2 ++ Call j kj aj (Some dj) :: tr3) = Some s ->
  di < dj \/ (di = 0 /\ dj = 0) -> In i (begun s) -> In j (begun s) -> before (begun s) i j.
Proof.
  intros v tr1 i ki ai di tr2 j kj aj dj tr3 s E DEL Bi Bj.
  destruct (inv_split v _ _ s E) as (s1 & E1 & E2 & I1). apply after_call in E2. destruct E2 as (N & E2 & S). pose proof (inv_step res s1 _ _ I1 S) as I2.
  set (s2 := set_ready (put s1 i (mkT ki ai (Some di) Created)) (ready s1 ++ [i])) in *.
  assert (T2 : tasks s2 i = Some (mkT ki ai (Some di) Created)) by (cbn; apply upd_same). clearbody s2.
  pose proof E2 as E3. rewrite run_app in E3. destruct (run s2 tr2) as [s3|] eqn:R3; [|discriminate]. pose proof (inv_run res tr2 s2 s3 I2 R3) as I3.
  apply after_call in E3. destruct E3 as (N3 & E4 & S3).
  assert (NIJ : i <> j). { intros <-. apply (one_call _ s2 s i _ I2 T2 E2 kj aj (Some dj)). apply in_or_app. right. now left. }
  assert (TJ : tasks s2 j = None).
  { destruct (tasks s2 j) as [u|] eqn:Q; auto. exfalso. apply (one_call _ s2 s j u I2 Q E2 kj aj (Some dj)). apply in_or_app. right. now left. }
  assert (O : ordered i j di dj s2).
  { exists (mkT ki ai (Some di) Created). split; auto. split; auto. rewrite TJ. split; [discriminate|]. cbn. rewrite TJ. split; [|discriminate].
    intros J. apply (v_known s2 I2) in J. destruct J as (u & J). congruence. }
  assert (CJ : forall k a d, In (Call j k a d) (tr2 ++ Call j kj aj (Some dj) :: tr3) -> d = Some dj).
  { intros k a d J. apply in_app_or in J. destruct J as [J|[J|J]]; [|congruence|].
    - exfalso. clear -J R3 N3 I2. apply in_split in J. destruct J as (l1 & l2 & ->). rewrite run_app in R3. destruct (run s2 l1) as [s0|] eqn:R0; [|discriminate].
      pose proof (inv_run res l1 s2 s0 I2 R0) as I0. apply after_call in R3. destruct R3 as (N & R3 & S).
      pose proof (inv_step res s0 _ _ I0 S) as I1. clear -R3 N3 I1. assert (T : exists u, tasks (set_ready (put s0 j (mkT k a d Created)) (ready s0 ++ [j])) j = Some u) by (exists (mkT k a d Created); cbn; apply upd_same).
      revert R3 I1 T. generalize (set_ready (put s0 j (mkT k a d Created)) (ready s0 ++ [j])). induction l2 as [|x l2 IH]; intros s4 R I (u & T); cbn in R; [congruence|].
      destruct (step s4 x) as [s5|] eqn:S; [|discriminate]. destruct (step_moves res s4 x s5 j u I S T) as (u' & T' & _). apply (IH s5); eauto. now apply (inv_step res s4 x).
    - exfalso. pose proof (inv_step res s3 _ _ I3 S3) as I4. apply (one_call tr3 _ s j (mkT kj aj (Some dj) Created) I4) with (k := k) (a := a) (d := d) in E4; auto. cbn. apply upd_same. }
  destruct (ord_run res i j di dj NIJ DEL _ CJ s2 s I2 O E2) as (ti & Ti & _ & _ & U). unfold upto in U.
  pose proof (inv_run res _ s2 s I2 E2) as I. destruct (v_begun s I i ti Ti Bi) as [P|[P|(o & P)]]; rewrite P in U; auto.
Qed.
(** More generally: the loop got through its queue at some moment after the first call, and that
    moment plus the first delay is before the second call plus its delay (equal delays, say, but the second call
    made later). *)
Definition slept (i d : nat) (s : st) : Prop := exists t, tasks s i = Some t /\ c_delay t = Some d /\ match c_phase t with Asleep due => due <= now s + d | _ => True end.
Lemma slept_run i d (tr : list event) : forall s s' : st, @Inv V s -> slept i d s -> run s tr = Some s' -> slept i d s'.
Proof.
  induction tr as [|x tr IH]; intros s s' I B E; cbn in E; [now inversion E; subst|]. destruct (step s x) as [s1|] eqn:S; [|discriminate].
  apply (IH s1); auto; [now apply (inv_step res s x)|]. destruct B as (t & T & D & P). pose proof (now_grows s s1 x S) as NG.
  destruct (step_moves res s x s1 i t I S T) as (t' & T' & M). exists t'. split; auto. destruct M; cbn; auto.
  - split; auto. destruct (c_phase t); auto. lia.
  - split; auto. assert (d0 = d) by congruence. lia.
Qed.
Lemma uncalled (tr : list event) : forall (s s' : st) i, @Inv V s -> run s tr = Some s' -> tasks s' i = None -> forall k a d, ~ In (Call i k a d) tr.
Proof.
  intros s s' i I E N k a d J. apply in_split in J. destruct J as (l1 & l2 & ->). rewrite run_app in E. destruct (run s l1) as [s0|] eqn:R0; [|discriminate].
  pose proof (inv_run res l1 s s0 I R0) as I0. apply after_call in E. destruct E as (_ & E & S). pose proof (inv_step res s0 _ _ I0 S) as I1.
  assert (T : exists u, tasks (set_ready (put s0 i (mkT k a d Created)) (ready s0 ++ [i])) i = Some u) by (exists (mkT k a d Created); cbn; apply upd_same).
  revert E I1 T. generalize (set_ready (put s0 i (mkT k a d Created)) (ready s0 ++ [i])). clear -N. induction l2 as [|x l2 IH]; intros s4 R I (u & T); cbn in R; [congruence|].
  destruct (step s4 x) as [s5|] eqn:S; [|discriminate]. destruct (step_moves res s4 x s5 i u I S T) as (u' & T' & _). apply (IH s5); eauto. now apply (inv_step res s4 x).
Qed.
Lemma task_stays (tr : list event) : forall (s s' : st) i u, @Inv V s -> tasks s i = Some u -> run s tr = Some s' -> tasks s' i <> None.
Proof.
  induction tr as [|x tr IH]; intros s s' i u I T E; cbn in E; [inversion E; subst; congruence|]. destruct (step s x) as [s1|] eqn:S; [|discriminate].
  destruct (step_moves res s x s1 i u I S T) as (u' & T' & _). apply (IH s1 s' i u'); auto. now apply (inv_step res s x).
Qed.
Theorem C76_order_time_partial : forall (v : nat -> V) tr1 s1 i ki ai di tr2 s2 tr3 s3 j kj aj dj tr4 s,
  run (fresh v) tr1 = Some s1 -> run s1 (Call i ki ai (Some di) :: tr2) = Some s2 -> ready s2 = [] -> run s2 tr3 = Some s3 ->
  now s2 + di < now s3 + dj -> dj <> 0 -> run s3 (Call j kj aj (Some dj) :: tr4) = Some s ->
  In i (begun s) -> In j (begun s) -> before (begun s) i j.
Proof.
  intros v tr1 s1 i ki ai di tr2 s2 tr3 s3 j kj aj dj tr4 s E1 E2 R2 E3 LT NZ E4 Bi Bj.
  pose proof (inv_reached res v tr1 s1 E1) as I1. apply after_call in E2. destruct E2 as (N1 & E2 & S1). pose proof (inv_step res s1 _ _ I1 S1) as I1'.
  assert (B : slept i di s2).
  { apply (slept_run i di tr2 _ s2 I1'); auto. exists (mkT ki ai (Some di) Created). cbn. rewrite upd_same. auto. }
  clear N1 S1. pose proof (inv_run res tr2 _ s2 I1' E2) as I2. pose proof (inv_run res tr3 s2 s3 I2 E3) as I3. apply after_call in E4. destruct E4 as (N3 & E4 & S3). pose proof (inv_step res s3 _ _ I3 S3) as I3'.
  pose proof (uncalled tr3 s2 s3 j I2 E3 N3) as U3.
  assert (N2 : tasks s2 j = None).
  { destruct (tasks s2 j) as [u|] eqn:Q; auto. exfalso. now apply (task_stays tr3 s2 s3 j u I2 Q E3). }
  destruct B as (t & T & D & P).
  assert (NIJ : i <> j) by congruence.
  assert (NBj : ~ In j (begun s2)) by (intros J; apply (v_known s2 I2) in J; destruct J as (u & J); congruence).
  assert (O : ordered_t i j di dj (now s2 + di) s2).
  { exists t. split; auto. split; auto. rewrite N2. split; [discriminate|]. unfold upto_t. rewrite N2. destruct (c_phase t) eqn:PH; try (intros; contradiction).
    - assert (J : In i (ready s2)) by (apply (v_ready s2 I2); exists t; unfold queued; auto). rewrite R2 in J. destruct J.
    - split; auto. split; auto. discriminate.
    - assert (J : In i (ready s2)) by (apply (v_ready s2 I2); exists t; unfold queued; auto). rewrite R2 in J. destruct J. }
  pose proof (ordt_run res i j di dj _ NIJ NZ tr3 U3 s2 s3 I2 O E3) as O3.
  assert (O4 : ordered_t i j di dj (now s2 + di) (set_ready (put s3 j (mkT kj aj (Some dj) Created)) (ready s3 ++ [j]))).
  { apply (ordt_step res i j di dj _ NIJ NZ s3 (Call j kj aj (Some dj))); auto. intros k a d Q. inversion Q. auto. }
  assert (U4 : forall k a d, ~ In (Call j k a d) tr4) by (apply (one_call tr4 _ s j (mkT kj aj (Some dj) Created) I3'); auto; cbn; apply upd_same).
  destruct (ordt_run res i j di dj _ NIJ NZ tr4 U4 _ s I3' O4 E4) as (ti & Ti & _ & _ & U). unfold upto_t in U.
  pose proof (inv_run res tr4 _ s I3' E4) as I. destruct (v_begun s I i ti Ti Bi) as [Q|[Q|(o & Q)]]; rewrite Q in U; auto.
Qed.
(** Calls on actors of this pool reach them in the order in which they are begun. *)
Definition local_call (s : st) (i : nat) : Prop := exists t a, tasks s i = Some t /\ c_kind t = Local a.
Lemma before_snoc_old (l : list nat) k i j : NoDup (l ++ [k]) -> before (l ++ [k]) i j -> i <> k /\ (j <> k -> before l i j).
Proof.
  intros ND (a & b & c & Q). destruct c as [|x c] using rev_ind.
  - assert (l ++ [k] = (a ++ i :: b) ++ [j]) as Q' by (rewrite Q, <- app_assoc; reflexivity). apply app_inj_tail in Q'. destruct Q' as (-> & ->). split; [|congruence].
    intros ->. rewrite <- app_assoc in ND. apply NoDup_remove_2 in ND. apply ND. apply in_or_app. right. apply in_or_app. right. now left.
  - clear IHc. assert (l ++ [k] = (a ++ i :: b ++ j :: c) ++ [x]) as Q' by (rewrite Q, <- app_assoc; cbn; rewrite <- app_assoc; reflexivity). apply app_inj_tail in Q'. destruct Q' as (-> & ->).
    split; [|intros _; now exists a, b, c]. intros ->. rewrite <- app_assoc in ND. apply NoDup_remove_2 in ND. apply ND. apply in_or_app. right. apply in_or_app. right. now left.
Qed.
Lemma before_nodup (l : list nat) i j : NoDup l -> before l i j -> ~ before l j i.
Proof.
  induction l as [|x l IH]; intros ND B1 B2; [destruct B1 as ([|] & b & c & Q); discriminate|]. inversion ND; subst.
  destruct (Nat.eq_dec x i) as [->|N].
  - destruct B2 as ([|y a] & b & c & Q); inversion Q; subst.
    + apply H1. destruct B1 as ([|z a'] & b' & c' & Q'); inversion Q'; subst; [apply in_or_app; right; now left|]. apply in_or_app. right. now left.
    + apply H1. apply in_or_app. right. right. apply in_or_app. right. now left.
  - destruct (Nat.eq_dec x j) as [->|N'].
    + destruct B1 as ([|y a] & b & c & Q); inversion Q; subst; [congruence|]. apply H1. apply in_or_app. right. right. apply in_or_app. right. now left.
    + apply IH; auto; eapply before_tl; eauto.
Qed.
Theorem C76_local_order : forall (v : nat -> V) (tr : list event) (s : st) i j, run (fresh v) tr = Some s ->
  local_call s i -> local_call s j -> delivered s i -> delivered s j ->
  before (begun s) i j -> before (map (fun x => fst (fst x)) (out s)) i j.
Proof.
  intros v tr. induction tr as [|e tr IH] using rev_ind; intros s i j E Li Lj Di Dj B; [cbn in E; inversion E; subst; destruct Di as (t & x & [])|].
  destruct (inv_split v tr [e] s E) as (s1 & E1 & E2 & I1). cbn in E2. destruct (step s1 e) as [s2|] eqn:S; [|discriminate]. inversion E2; subst s2. clear E2.
  pose proof (inv_reached res v _ s E) as I. fold (ids (out s)) in *.
  assert (KEEP : forall k, In k (ids (out s1)) -> local_call s k -> local_call s1 k).
  { intros k J (t & a & T & K). apply (v_out s1 I1) in J. destruct J as (J & _). apply (v_known s1 I1) in J. destruct J as (t1 & T1). exists t1, a. split; auto.
    destruct (step_moves res s1 e s k t1 I1 S T1) as (t2 & T2 & M). assert (t2 = t) by congruence. subst t2. destruct M; auto. }
  assert (NB : NoDup (begun s)) by apply I.
  assert (OLD : In i (ids (out s1)) -> In j (ids (out s1)) -> before (ids (out s1)) i j).
  { intros Ji Jj. fold (ids (out s1)) in IH. apply (IH s1); auto; try (now apply delivered_ids); try (now apply KEEP).
    destruct (step_begun res s1 e s I1 S) as [Q|(k & t & _ & _ & Q & T & P)]; rewrite Q in B; auto. rewrite Q in NB. destruct (before_snoc_old _ _ _ _ NB B) as (_ & B').
    apply B'. intros ->. apply (v_out s1 I1) in Jj. destruct Jj as (Jj & _). apply NoDup_remove_2 in NB. apply NB. rewrite app_nil_r. auto. }
  apply delivered_ids in Di, Dj. destruct (step_out res s1 e s I1 S) as [Q|(k & t & T & Q & H)]; [rewrite Q in *; auto|].
  rewrite Q in *. unfold ids in *. rewrite map_app in *. cbn in *. fold (ids (out s1)) in *.
  assert (NO : ~ In k (ids (out s1))).
  { pose proof (v_onodup s I) as ND. rewrite Q, map_app in ND. cbn in ND. fold (ids (out s1)) in ND. apply NoDup_remove_2 in ND. now rewrite app_nil_r in ND. }
  apply in_app_or in Di, Dj. destruct Dj as [Dj|[->|[]]].
  - destruct Di as [Di|[->|[]]]; [apply before_grow; auto|]. exfalso.
    destruct H as [(-> & a & K & RA)|(-> & g & K)].
    + (* [i] begins in this step, [j] has before *)
      destruct (v_out s1 I1 j Dj) as (Bj & _).
      destruct (step_begun res s1 Run s I1 S) as [Q2|(k & t' & _ & HD & Q2 & T' & P')].
      * rewrite Q2 in B. apply before_in in B. destruct B as (B & _). destruct (v_begun s1 I1 i t T B) as [P|[P|(o & P)]].
        -- destruct Li as (t2 & a2 & T2 & K2). cbn in S. destruct (ready s1) as [|k q] eqn:R; [discriminate|]. destruct (tasks s1 k) as [u|] eqn:TK; [|discriminate].
           pose proof (turn_turns s1 k u q I1 R TK) as TT. inversion S as [SS]. rewrite SS in TT. destruct TT as [P' D'|d' P' D' NZ|P' D'|g' P' K'|a' P' K' RA'|a' P' K' RA'|a' P' K'].
           all: try (match type of Q with context [fail ?s0 ?i0 ?t1 ?e0] => destruct (tasks_fail s0 i0 t1 e0) as (o & _ & _ & F & _); rewrite F in Q end).
           all: cbn in Q; try (apply (f_equal (@length _)) in Q; rewrite app_length in Q; cbn in Q; lia).
           apply app_inv_head in Q. inversion Q; subst k. congruence.
        -- apply NO. now apply (v_handed s1 I1 i t).
        -- cbn in S. destruct (ready s1) as [|k q] eqn:R; [discriminate|]. destruct (tasks s1 k) as [u|] eqn:TK; [|discriminate].
           pose proof (turn_turns s1 k u q I1 R TK) as TT. inversion S as [SS]. rewrite SS in TT. destruct TT as [P' D'|d' P' D' NZ|P' D'|g' P' K'|a' P' K' RA'|a' P' K' RA'|a' P' K'].
           all: try (match type of Q with context [fail ?s0 ?i0 ?t1 ?e0] => destruct (tasks_fail s0 i0 t1 e0) as (o' & _ & _ & F & _); rewrite F in Q end).
           all: cbn in Q; try (apply (f_equal (@length _)) in Q; rewrite app_length in Q; cbn in Q; lia).
           apply app_inv_head in Q. inversion Q; subst k. congruence.
      * rewrite Q2 in NB, B. destruct (before_snoc_old _ _ _ _ NB B) as (NK & B'). assert (JK : j <> k).
        { intros ->. apply NoDup_remove_2 in NB. apply NB. now rewrite app_nil_r. }
        specialize (B' JK). apply before_in in B'. destruct B' as (B' & _). destruct (v_begun s1 I1 i t T B') as [P|[P|(o & P)]].
        -- cbn in S. destruct (ready s1) as [|k2 q] eqn:R; [discriminate|]. inversion HD; subst k2. rewrite T' in S.
           pose proof (turn_turns s1 k t' q I1 R T') as TT. inversion S as [SS]. rewrite SS in TT. destruct TT as [P2 D'|d' P2 D' NZ|P2 D'|g' P2 K'|a' P2 K' RA'|a' P2 K' RA'|a' P2 K'].
           all: try (match type of Q with context [fail ?s0 ?i0 ?t1 ?e0] => destruct (tasks_fail s0 i0 t1 e0) as (o & _ & _ & F & _); rewrite F in Q end).
           all: cbn in Q; try (apply (f_equal (@length _)) in Q; rewrite app_length in Q; cbn in Q; lia).
           apply app_inv_head in Q. inversion Q; subst k. congruence.
        -- apply NO. now apply (v_handed s1 I1 i t).
        -- cbn in S. destruct (ready s1) as [|k2 q] eqn:R; [discriminate|]. inversion HD; subst k2. rewrite T' in S.
           pose proof (turn_turns s1 k t' q I1 R T') as TT. inversion S as [SS]. rewrite SS in TT. destruct TT as [P2 D'|d' P2 D' NZ|P2 D'|g' P2 K'|a' P2 K' RA'|a' P2 K' RA'|a' P2 K'].
           all: try (match type of Q with context [fail ?s0 ?i0 ?t1 ?e0] => destruct (tasks_fail s0 i0 t1 e0) as (o' & _ & _ & F & _); rewrite F in Q end).
           all: cbn in Q; try (apply (f_equal (@length _)) in Q; rewrite app_length in Q; cbn in Q; lia).
           apply app_inv_head in Q. inversion Q; subst k. congruence.
    + destruct Li as (t2 & a2 & T2 & K2). destruct (step_moves res s1 (Hand i) s i t I1 S T) as (t3 & T3 & M). assert (t3 = t2) by congruence. subst t3. destruct M; cbn in K2; congruence.
  - destruct Di as [Di|[->|[]]]; [now apply before_snoc|]. exfalso. exact (before_nodup (begun s) _ _ NB B B).
Qed.

(** ** Outcomes *)
Lemma ended_final (tr : list event) : forall (s s' : st) i t o, @Inv V s -> tasks s i = Some t -> c_phase t = Ended o -> run s tr = Some s' -> tasks s' i = Some t.
Proof.
  induction tr as [|x tr IH]; intros s s' i t o I T P E; cbn in E; [now inversion E; subst|]. destruct (step s x) as [s1|] eqn:S; [|discriminate].
  assert (T1 : tasks s1 i = Some t).
  { destruct (step_moves res s x s1 i t I S T) as (t' & T' & M). destruct M; auto; try congruence; try (exfalso; apply (H0 o P)). destruct H0; congruence. }
  apply (IH s1 s' i t o); auto. now apply (inv_step res s x).
Qed.
Lemma exn_eq (x y : exn) : {x = y} + {x <> y}.
Proof. decide equality. apply Nat.eq_dec. Qed.
Lemma log_dec (l : list (nat * exn)) p : In p l \/ ~ In p l.
Proof. destruct (in_dec (fun x y : nat * exn => ltac:(decide equality; [apply exn_eq|apply Nat.eq_dec])) p l); auto. Qed.
(** A task that was made is there from then on. *)
Lemma call_stays v (tr : list event) (s : st) i k a d : run (fresh v) tr = Some s -> In (Call i k a d) tr -> tasks s i <> None.
Proof.
  intros E C. apply in_split in C. destruct C as (l1 & l2 & ->). destruct (inv_split v _ _ s E) as (s0 & E0 & E3 & I0). apply after_call in E3. destruct E3 as (_ & E3 & S3).
  pose proof (inv_step res s0 _ _ I0 S3) as I3. clear -E3 I3. assert (H : exists u, tasks (set_ready (put s0 i (mkT k a d Created)) (ready s0 ++ [i])) i = Some u) by (eexists; cbn; apply upd_same).
  revert E3 I3 H. generalize (set_ready (put s0 i (mkT k a d Created)) (ready s0 ++ [i])). induction l2 as [|x l2 IH]; intros s4 R I (u & U); cbn in R; [congruence|].
  destruct (step s4 x) as [s5|] eqn:S; [|discriminate]. destruct (step_moves res s4 x s5 i u I S U) as (u' & U' & _). apply (IH s5); eauto. now apply (inv_step res s4 x).
Qed.
Lemma fail_logs (s : st) j t e0 i e : In (i, e) (logged (fail s j t e0)) -> ~ In (i, e) (logged s) -> i = j /\ e = e0 /\ exists g, c_kind t = Remote g /\ tasks (fail s j t e0) = upd (tasks s) j (Some (phase_to t (Ended (Raised e0)))).
Proof.
  intros J N. unfold fail in *. destruct (c_kind t) as [g|a]; [|contradiction].
  assert (Q : logged (put (log s j e0) j (phase_to t (Ended (Raised e0)))) = logged s ++ [(j, e0)]) by reflexivity.
  destruct g; [destruct e0|]; try contradiction; rewrite Q in J; apply in_app_or in J; destruct J as [J|[J|[]]]; try contradiction; inversion J; subst; eauto.
Qed.
Lemma new_log (s : st) x s' i e : @Inv V s -> step s x = Some s' -> In (i, e) (logged s') -> ~ In (i, e) (logged s) ->
  exists t g, tasks s' i = Some t /\ c_phase t = Ended (Raised e) /\ c_kind t = Remote g.
Proof.
  intros I S J N. apply step_kinds in S. destruct S as [k kk a d' E|k u E NE|k u q R E|k u d' E P L M|k u g E P K|k u g E P K|k u g e0 E P K|n s' ->|a b s' ->|a w s' ->]; try (now elim N).
  - pose proof (turn_turns s k u q I R E) as T. destruct T as [P D|d' P D NZ|P D|g P K|a P K RA|a P K RA|a P K]; try (now elim N).
    + destruct (fail_logs _ _ _ _ _ _ J N) as (-> & -> & g & K & F). rewrite F, upd_same. eauto.
    + destruct (fail_logs _ _ _ _ _ _ J N) as (-> & -> & g & K' & F). congruence.
  - destruct (fail_logs _ _ _ _ _ _ J N) as (-> & -> & g' & K' & F). rewrite F, upd_same. eauto.
Qed.
(** Every outcome has its reason. *)
Definition reason (v : nat -> V) (tr : list event) (s : st) (i : nat) (k : kind) (d : option nat) (o : outcome) : Prop :=
  match o with
  | Cancelled => In (Cancel i) tr
  | Returned => delivered s i \/ (k = Remote true /\ In (Fail i ConnectionRefusedError) tr)
  | Raised e =>
      (e = TypeError /\ d = None) \/
      (e = ActorNotExist /\ exists tr1 tr2 s1 a, tr = tr1 ++ Run :: tr2 /\ run (fresh v) tr1 = Some s1 /\ k = Local a /\ reach s1 a = false) \/
      (exists g, k = Remote g /\ In (Fail i e) tr /\ (g = true -> e <> ConnectionRefusedError))
  end.
Lemma call_once (tr : list event) v (s : st) i k a d t : run (fresh v) tr = Some s -> In (Call i k a d) tr -> tasks s i = Some t -> c_kind t = k /\ c_arg t = a /\ c_delay t = d.
Proof.
  intros E J T. apply in_split in J. destruct J as (tr1 & tr2 & ->). destruct (inv_split v _ _ s E) as (s1 & E1 & E2 & I1). apply after_call in E2. destruct E2 as (N & E2 & S).
  pose proof (inv_step res s1 _ _ I1 S) as I2. assert (H : exists u, tasks (set_ready (put s1 i (mkT k a d Created)) (ready s1 ++ [i])) i = Some u /\ c_kind u = k /\ c_arg u = a /\ c_delay u = d) by (eexists; cbn; rewrite upd_same; split; [reflexivity|auto]).
  revert E2 I2 H. generalize (set_ready (put s1 i (mkT k a d Created)) (ready s1 ++ [i])). clear -T. induction tr2 as [|x tr2 IH]; intros s2 E I (u & U & H); cbn in E; [inversion E; subst; assert (u = t) by congruence; now subst u|].
  destruct (step s2 x) as [s3|] eqn:S; [|discriminate]. destruct (step_moves res s2 x s3 i u I S U) as (u' & U' & M).
  apply (IH s3); auto; [now apply (inv_step res s2 x)|]. exists u'. split; auto. destruct M; auto.
Qed.
Theorem C76_outcome : forall (v : nat -> V) (tr : list event) (s : st) i k a d o, run (fresh v) tr = Some s -> In (Call i k a d) tr -> result s i = Some o -> reason v tr s i k d o.
Proof.
  intros v tr s i k a d o E J R. unfold result in R. destruct (tasks s i) as [t|] eqn:T; [|discriminate]. destruct (c_phase t) as [| | | | |o'] eqn:P; inversion R; subst o'. clear R.
  destruct (call_once tr v s i k a d t E J T) as (<- & _ & <-). clear J. revert s t T P E. induction tr as [|e tr IH] using rev_ind; intros s t T P E; [cbn in E; inversion E; subst; discriminate|].
  destruct (inv_split v tr [e] s E) as (s1 & E1 & E2 & I1). cbn in E2. destruct (step s1 e) as [s2|] eqn:S; [|discriminate]. inversion E2; subst s2.
  assert (GO : delivered s1 i -> delivered s i).
  { intros (t0 & x & J). destruct (out_grows [e] s1 s I1) as (l & Q); [cbn; now rewrite S|]. exists t0, x. rewrite Q. apply in_or_app. now left. }
  destruct (tasks s1 i) as [t1|] eqn:T1.
  2:{ pose proof (task_call v (tr ++ [e]) s i t E T) as C. apply in_app_or in C. destruct C as [C|[C|[]]].
      - exfalso. now apply (call_stays v tr s1 i _ _ _ E1 C).
      - subst e. cbn in S. rewrite T1 in S. inversion S; subst s. cbn in T. rewrite upd_same in T. apply (f_equal (fun o => match o with Some u => c_phase u | None => Woken end)) in T. cbn in T. congruence. }
  assert (LAST : In e (tr ++ [e])) by (apply in_or_app; right; now left).
  destruct (step_moves res s1 e s i t1 I1 S T1) as (t' & T' & M). assert (QT : t' = t) by congruence. rewrite <- QT in P |- *. clear QT T t.
  destruct M; cbn in P |- *; try discriminate; try (inversion P; subst o).
  - specialize (IH s1 t1 T1 P E1). destruct o as [|e0|]; cbn in *.
    + destruct IH as [D|(K & F)]; [left; auto|right; split; auto; apply in_or_app; auto].
    + destruct IH as [H|[(-> & tr1 & tr2 & s0 & a' & -> & H)|(g & K & F & H)]]; [left; auto| |right; right; exists g; split; auto; split; auto; apply in_or_app; auto].
      right. left. split; auto. exists tr1, (tr2 ++ [e]), s0, a'. split; auto. now rewrite <- app_assoc.
    + apply in_or_app. auto.
  - now subst e.
  - left. auto.
  - right. left. split; auto. subst e. exists tr, [], s1, a0. auto.
  - left. apply GO. apply delivered_ids. now apply (v_handed s1 I1 i t1).
  - left. apply GO. apply delivered_ids. now apply (v_handed s1 I1 i t1).
  - subst e. destruct g; [|right; right; exists false; split; auto; split; auto; discriminate].
    destruct e0; [right; auto|..]; right; right; exists true; (split; [auto|]); (split; [auto|]); discriminate.
Qed.
(** A delayed call to another pool that raises is logged, and nothing else is. *)
Theorem C76_logged : forall (v : nat -> V) (tr : list event) (s : st) i e, run (fresh v) tr = Some s ->
  (In (i, e) (logged s) <-> result s i = Some (Raised e) /\ exists g a d, In (Call i (Remote g) a d) tr).
Proof.
  intros v tr s i e E.
  assert (H : In (i, e) (logged s) <-> exists t g, tasks s i = Some t /\ c_phase t = Ended (Raised e) /\ c_kind t = Remote g).
  { revert s E. induction tr as [|x tr IH] using rev_ind; intros s E.
    - cbn in E. inversion E; subst. cbn. split; [intros []|intros (t & g & Q & _); discriminate].
    - destruct (inv_split v tr [x] s E) as (s1 & E1 & E2 & I1). cbn in E2. destruct (step s1 x) as [s2|] eqn:S; [|discriminate]. inversion E2; subst s2. specialize (IH s1 E1).
      split.
      + intros J. destruct (log_dec (logged s1) (i, e)) as [D|D].
        * apply IH in D. destruct D as (t & g & T & P & K). exists t, g. split; auto. apply (ended_final [x] s1 s i t (Raised e) I1 T P). cbn. now rewrite S.
        * now apply (new_log s1 x s i e I1 S).
      + intros (t & g & T & P & K). destruct (tasks s1 i) as [t1|] eqn:T1.
        * destruct (c_phase t1) as [| | | | |o] eqn:P1.
          6:{ assert (Q : tasks s i = Some t1) by (apply (ended_final [x] s1 s i t1 o I1 T1 P1); cbn; now rewrite S). assert (t = t1) by congruence. subst t1.
              destruct (step_logged res s1 x s S) as (l & ->). apply in_or_app. left. apply IH. eauto. }
          all: destruct (step_moves res s1 x s i t1 I1 S T1) as (t' & T' & M); assert (t' = t) by congruence; subst t'; apply (step_logs res s1 x s i t1 t e g I1 S T1 T); auto; [destruct M; auto|rewrite P1; discriminate].
        * pose proof (task_call v (tr ++ [x]) s i t E T) as C. apply in_app_or in C. destruct C as [C|[C|[]]].
          -- exfalso. now apply (call_stays v tr s1 i _ _ _ E1 C).
          -- subst x. cbn in S. rewrite T1 in S. inversion S; subst s. cbn in T. rewrite upd_same in T. apply (f_equal (fun o => match o with Some u => c_phase u | None => Woken end)) in T. cbn in T. congruence. }
  rewrite H. unfold result. split.
  - intros (t & g & T & P & K). rewrite T, P. split; auto. pose proof (task_call v tr s i t E T) as C. rewrite K in C. eauto.
  - intros (R & g & a & d & C). destruct (tasks s i) as [t|] eqn:T; [|discriminate]. destruct (c_phase t) eqn:P; inversion R; subst. destruct (call_once tr v s i _ a d t E C T) as (K & _). eauto.
Qed.

(** ** Cancelling *)
(** A call cancelled before it began never begins, and nothing of it is handed over. *)
Theorem C76_cancelled : forall (v : nat -> V) tr1 s1 i tr2 s, run (fresh v) tr1 = Some s1 -> ~ In i (begun s1) -> run s1 (Cancel i :: tr2) = Some s ->
  ~ In i (begun s) /\ ~ delivered s i /\ result s i = Some Cancelled.
Proof.
  intros v tr1 s1 i tr2 s E1 NB E2. pose proof (inv_reached res v tr1 s1 E1) as I1. cbn in E2. destruct (tasks s1 i) as [t|] eqn:T; [|discriminate].
  destruct (match c_phase t with Ended _ => None | _ => _ end) as [s2|] eqn:S; [|discriminate].
  assert (S' : step s1 (Cancel i) = Some s2) by (cbn; now rewrite T). pose proof (inv_step res s1 _ s2 I1 S') as I2.
  assert (Q : s2 = set_timers (set_ready (put s1 i (phase_to t (Ended Cancelled))) (drop i (ready s1))) (drop_timer i (timers s1))) by (destruct (c_phase t); inversion S; reflexivity).
  assert (T2 : tasks s2 i = Some (phase_to t (Ended Cancelled))) by (subst s2; cbn; apply upd_same). assert (B2 : ~ In i (begun s2)) by (subst s2; exact NB). clear Q S S'.
  assert (B : ~ In i (begun s)).
  { clear -I2 T2 B2 E2. revert s2 I2 T2 B2 E2. induction tr2 as [|x tr2 IH]; intros s2 I2 T2 B2 E; cbn in E; [inversion E; now subst|]. destruct (step s2 x) as [s3|] eqn:S; [|discriminate].
    apply (IH s3); auto; [now apply (inv_step res s2 x)|apply (ended_final [x] s2 s3 i _ Cancelled I2 T2 eq_refl); cbn; now rewrite S|].
    destruct (step_begun res s2 x s3 I2 S) as [->|(k & u & _ & _ & -> & U & P)]; auto. intros J. apply in_app_or in J. destruct J as [J|[->|[]]]; auto. rewrite T2 in U. inversion U; subst u. discriminate. }
  pose proof (inv_run res tr2 s2 s I2 E2) as I. split; auto. split.
  - intros D. apply delivered_ids in D. apply (v_out s I) in D. tauto.
  - unfold result. rewrite (ended_final tr2 s2 s i _ Cancelled I2 T2 eq_refl E2). reflexivity.
Qed.

(** ** To the end *)
(** In every situation a call that has not ended can end: handed over, unless it has no delay or its
    actor is gone. *)
Theorem C76_can_finish : forall (v : nat -> V) tr s i k a d, run (fresh v) tr = Some s -> In (Call i k a d) tr -> result s i = None ->
  exists tr' s' o, run s tr' = Some s' /\ result s' i = Some o /\
    ((o = Returned /\ delivered s' i) \/ (o = Raised TypeError /\ d = None) \/ (o = Raised ActorNotExist /\ exists ac, k = Local ac)).
Proof.
  intros v tr s i k a d E C R. pose proof (inv_reached res v tr s E) as I. assert (RS : remote_sends s).
  { apply (remote_sends_run res tr (fresh v) s (inv_fresh res v)); [|exact E]. intros j t Q. discriminate. }
  destruct (tasks s i) as [t|] eqn:T; [|exfalso; now apply (call_stays v tr s i _ _ _ E C)]. unfold result in R. rewrite T in R.
  destruct (can_finish res s i t I RS T) as (tr' & s' & t' & o & E' & T' & P' & F); [intros o P; rewrite P in R; discriminate|].
  exists tr', s', o. split; auto. split; [unfold result; now rewrite T', P'|].
  assert (EE : run (fresh v) (tr ++ tr') = Some s') by (rewrite run_app, E; exact E').
  destruct (call_once (tr ++ tr') v s' i k a d t' EE) as (<- & _ & <-); auto; [apply in_or_app; auto|].
  destruct F as [(-> & D)|[H|H]]; auto. left. split; auto. now apply delivered_ids.
Qed.
End Props.

(** ** What does not hold *)
(** Claim: of two calls with the same delay, the one made first is begun first. *)
Definition same_delay_in_order : Prop := forall (V : Type) (res : nat) (v : nat -> V) tr1 i ki ai d tr2 j kj aj tr3 s,
  run res (fresh v) (tr1 ++ Call i ki ai (Some d) :: tr2 ++ Call j kj aj (Some d) :: tr3) = Some s -> In i (begun s) -> In j (begun s) -> before (begun s) i j.
(** Timers due at the same clock reading leave the heap in any order ([Demo.heap_reverses]). *)
Theorem C76_same_delay_refuted : ~ same_delay_in_order.
Proof.
  intros H. destruct (run 0 (fresh (fun _ : nat => 0)) ([] ++ Call 1 (Remote true) 0 (Some 5) :: [] ++ Call 2 (Remote true) 0 (Some 5) :: [Run; Run; Tick 5; Fire 2; Fire 1; Run; Run])) as [s|] eqn:E.
  - assert (B : begun s = [2; 1]).
    { assert (Q : option_map (@begun nat) (run 0 (fresh (fun _ : nat => 0)) ([] ++ Call 1 (Remote true) 0 (Some 5) :: [] ++ Call 2 (Remote true) 0 (Some 5) :: [Run; Run; Tick 5; Fire 2; Fire 1; Run; Run])) = Some [2; 1]) by (vm_compute; reflexivity).
      rewrite E in Q. now injection Q as Q. }
    specialize (H nat 0 _ _ _ _ _ _ _ _ _ _ _ s E). rewrite B in H. assert (I1 : In 1 [2; 1]) by (cbn; auto). assert (I2 : In 2 [2; 1]) by (cbn; auto). specialize (H I1 I2).
    apply (before_nodup [2; 1] 1 2); auto; [repeat constructor; cbn; intuition discriminate|]. now exists [], [], [].
  - assert (Q : option_map (@begun nat) (run 0 (fresh (fun _ : nat => 0)) ([] ++ Call 1 (Remote true) 0 (Some 5) :: [] ++ Call 2 (Remote true) 0 (Some 5) :: [Run; Run; Tick 5; Fire 2; Fire 1; Run; Run])) = Some [2; 1]) by (vm_compute; reflexivity).
    rewrite E in Q. discriminate.
Qed.
(** Claim: what arrives is what the arguments contained when [tell_delay] was called. *)
Definition arguments_of_call : Prop := forall (V : Type) (res : nat) (v : nat -> V) tr1 s1 i k a d tr2 s t x,
  run res (fresh v) tr1 = Some s1 -> run res s1 (Call i k a d :: tr2) = Some s -> In (i, t, x) (out s) -> x = val s1 a.
Theorem C76_arguments_refuted : ~ arguments_of_call.
Proof.
  intros H. set (tr := ([Call 1 (Remote true) 0 (Some 1); Run; Change 0 9; Tick 1; Fire 1; Run; Hand 1] : list (@event nat))).
  assert (Q : option_map (@out nat) (run 0 (fresh (fun _ : nat => 0)) tr) = Some [(1, 1, 9)]) by (vm_compute; reflexivity).
  destruct (run 0 (fresh (fun _ : nat => 0)) tr) as [s|] eqn:E; [|discriminate]. injection Q as Q.
  assert (J : In (1, 1, 9) (out s)) by (rewrite Q; now left). pose proof (H nat 0 (fun _ => 0) [] (fresh (fun _ => 0)) 1 (Remote true) 0 (Some 1) _ s 1 9 eq_refl E J) as X. cbn in X. discriminate.
Qed.
(** Claim: a call whose task says that it was cancelled is not delivered. *)
Definition cancelled_not_delivered : Prop := forall (V : Type) (res : nat) (v : nat -> V) tr s i, run res (fresh v) tr = Some s -> result s i = Some Cancelled -> ~ delivered s i.
Theorem C76_cancelled_refuted : ~ cancelled_not_delivered.
Proof.
  intros H. set (tr := ([Call 1 (Remote true) 0 (Some 0); Run; Run; Hand 1; Cancel 1] : list (@event nat))).
  assert (Q : option_map (fun s => (out s, result s 1)) (run 0 (fresh (fun _ : nat => 0)) tr) = Some ([(1, 0, 0)], Some Cancelled)) by (vm_compute; reflexivity).
  destruct (run 0 (fresh (fun _ : nat => 0)) tr) as [s|] eqn:E; [|discriminate]. injection Q as Q1 Q2.
  apply (H nat 0 _ tr s 1 E Q2). exists 0, 0. rewrite Q1. now left.
Qed.
(** Claim: a call that nothing cancels, nothing fails and whose actor is there, and that has ended, was
    delivered.  ([delay] defaults to None: the task fails, and nobody need look at it.) *)
Definition ended_delivered : Prop := forall (V : Type) (res : nat) (v : nat -> V) tr s i k a d, run res (fresh v) tr = Some s -> In (Call i k a d) tr ->
  (forall j, ~ In (Cancel j) tr) -> (forall j e, ~ In (Fail j e) tr) -> (exists g, k = Remote g) -> result s i <> None -> delivered s i.
Theorem C76_delivered_refuted : ~ ended_delivered.
Proof.
  intros H. set (tr := ([Call 1 (Remote true) 0 None; Run] : list (@event nat))).
  assert (Q : option_map (fun s => (out s, result s 1)) (run 0 (fresh (fun _ : nat => 0)) tr) = Some ([], Some (Raised TypeError))) by (vm_compute; reflexivity).
  destruct (run 0 (fresh (fun _ : nat => 0)) tr) as [s|] eqn:E; [|discriminate]. injection Q as Q1 Q2.
  assert (D : delivered s 1).
  { apply (H nat 0 _ tr s 1 (Remote true) 0 None E).
    - now left.
    - intros j [J|[J|[]]]; discriminate.
    - intros j e [J|[J|[]]]; discriminate.
    - now exists true.
    - rewrite Q2. discriminate. }
  destruct D as (t & x & J). rewrite Q1 in J. destruct J.
Qed.
(** What is left of it: with a delay. *)
Theorem C76_delivered_partial : forall (V : Type) (res : nat) (v : nat -> V) tr s i g a d, run res (fresh v) tr = Some s -> In (Call i (Remote g) a (Some d)) tr ->
  ~ In (Cancel i) tr -> (forall e, ~ In (Fail i e) tr) -> result s i <> None -> result s i = Some Returned /\ delivered s i.
Proof.
  intros V res v tr s i g a d E C NC NF R. destruct (result s i) as [o|] eqn:RS; [|congruence]. pose proof (C76_outcome res v tr s i _ _ _ o E C RS) as Q.
  destruct o as [|e|]; cbn in Q.
  - destruct Q as [Q|(_ & Q)]; [auto|now elim (NF _ Q)].
  - destruct Q as [(_ & Q)|[(_ & tr1 & tr2 & s1 & a' & _ & _ & Q & _)|(g' & _ & Q & _)]]; try discriminate. now elim (NF _ Q).
  - contradiction.
Qed.

(** ** Examples *)
Module Demo.
(** Three calls: to another pool after 5 ticks, to an actor of this pool after 2, one that is
    cancelled; the clock resolution is 1. *)
Definition calls : list (@event nat) := [Reach 7 true; Call 1 (Remote true) 0 (Some 5); Call 2 (Local 7) 1 (Some 2); Call 3 (Remote false) 0 (Some 9); Run; Run; Run].
Definition later : list (@event nat) := [Tick 1; Fire 2; Run; Cancel 3; Tick 3; Run; Fire 1; Run; Change 0 8; Hand 1; Return 1].
Definition v0 (n : nat) : nat := n + 20.
Example demo : option_map (fun s => (now s, begun s, out s, map (result s) [1; 2; 3], ready s, timers s)) (run 1 (fresh v0) (calls ++ later)) =
  Some (4, [2; 1], [(2, 1, 21); (1, 4, 8)], [Some Returned; Some Returned; Some Cancelled], [], []).
Proof. vm_compute. reflexivity. Qed.
(** [C76_in_time]: its hypotheses are met by call 2. *)
Example demo_in_time : exists s1 s2 s, run 1 (fresh v0) [Reach 7 true; Call 1 (Remote true) 0 (Some 5)] = Some s1 /\ run 1 s1 (Call 2 (Local 7) 1 (Some 2) :: [Run; Run]) = Some s2 /\ ready s2 = [] /\
  run 1 s2 [Tick 1; Fire 2; Run; Run; Tick 2] = Some s /\ idle 1 s /\ now s2 + 2 <= now s + 1 /\ In 2 (begun s).
Proof.
  eexists _, _, _. split; [cbv; reflexivity|]. split; [cbv; reflexivity|]. split; [reflexivity|]. split; [cbv; reflexivity|]. split; [|split; [cbv; lia|now left]].
  split; [reflexivity|]. intros due j [Q|[]]. inversion Q. cbv. lia.
Qed.
(** [C76_order_partial]: the longer delay was asked for first. *)
Example demo_order : option_map (@begun nat) (run 1 (fresh v0) ([Reach 7 true] ++ Call 2 (Local 7) 1 (Some 2) :: [Run] ++ Call 1 (Remote true) 0 (Some 5) :: [Run; Tick 9; Fire 2; Fire 1; Run; Run])) = Some [2; 1].
Proof. vm_compute. reflexivity. Qed.
(** ... and the loop does not take the later timer first. *)
Example demo_order' : run 1 (fresh v0) ([Reach 7 true] ++ Call 2 (Local 7) 1 (Some 2) :: [Run] ++ Call 1 (Remote true) 0 (Some 5) :: [Run; Tick 9; Fire 1]) = None.
Proof. vm_compute. reflexivity. Qed.
(** [C76_order_time_partial]: equal delays, the second call a tick later. *)
Example demo_order_time : exists s1 s2 s3 s, run 0 (fresh v0) [] = Some s1 /\ run 0 s1 [Call 1 (Remote true) 0 (Some 5); Run] = Some s2 /\ ready s2 = [] /\ run 0 s2 [Tick 1] = Some s3 /\
  now s2 + 5 < now s3 + 5 /\ run 0 s3 [Call 2 (Remote true) 0 (Some 5); Run; Tick 8; Fire 1; Fire 2; Run; Run] = Some s /\ begun s = [1; 2].
Proof. eexists _, _, _, _. repeat (split; [cbv; reflexivity|]). cbv; reflexivity. Qed.
(** [C76_outcome]: failures of the network, one of which is ignored, and of a local actor. *)
Example demo_failures : option_map (fun s => (map (result s) [1; 2; 3; 4], logged s, out s))
  (run 0 (fresh v0) [Call 1 (Remote true) 0 (Some 0); Call 2 (Remote false) 0 (Some 0); Call 3 (Local 7) 0 (Some 0); Call 4 (Remote false) 0 None; Run; Run; Run; Run; Run; Run; Run; Fail 1 ConnectionRefusedError; Fail 2 ConnectionRefusedError]) =
  Some ([Some Returned; Some (Raised ConnectionRefusedError); Some (Raised ActorNotExist); Some (Raised TypeError)], [(4, TypeError); (2, ConnectionRefusedError)], []).
Proof. vm_compute. reflexivity. Qed.
(** CPython's heap: four timers due at the same time leave in another order than they came. *)
Fixpoint pops (n : nat) (h : list (nat * nat)) : list nat :=
  match n with 0 => [] | S n => match heappop h with Some (x, h') => snd x :: pops n h' | None => [] end end.
Example heap_sorts : pops 4 (fold_left heappush [(7, 1); (5, 2); (9, 3); (6, 4)] []) = [2; 4; 1; 3].
Proof. vm_compute. reflexivity. Qed.
Example heap_reverses : pops 4 (fold_left heappush [(5, 1); (5, 2); (5, 3); (5, 4)] []) = [1; 3; 2; 4].
Proof. vm_compute. reflexivity. Qed.
End Demo.

Print Assumptions C76_at_most_once.
Print Assumptions C76_kept.
Print Assumptions C76_not_early.
Print Assumptions C76_in_time.
Print Assumptions C76_content.
Print Assumptions C76_unchanged_partial.
Print Assumptions C76_order_partial.
Print Assumptions C76_order_time_partial.
Print Assumptions C76_local_order.
Print Assumptions C76_outcome.
Print Assumptions C76_logged.
Print Assumptions C76_cancelled.
Print Assumptions C76_can_finish.
Print Assumptions C76_same_delay_refuted.
Print Assumptions C76_arguments_refuted.
Print Assumptions C76_cancelled_refuted.
Print Assumptions C76_delivered_refuted.
Print Assumptions C76_delivered_partial.
