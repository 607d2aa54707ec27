(** * DelayProofs: invariants of the model of delayed calls *)
From Coq Require Import List Arith Bool Lia.
From Verif Require Import DelayModel.
Import ListNotations.

Lemma upd_same {X} (m : nat -> X) k x : upd m k x k = x.
Proof. unfold upd. now rewrite Nat.eqb_refl. Qed.
Lemma upd_other {X} (m : nat -> X) k j x : j <> k -> upd m k x j = m j.
Proof. intros N. unfold upd. destruct (Nat.eqb_spec j k); congruence. Qed.

(** ** Order in a list *)
Definition before {X} (l : list X) (i j : X) : Prop := exists l1 l2 l3, l = l1 ++ i :: l2 ++ j :: l3.
Lemma before_grow {X} (l m : list X) i j : before l i j -> before (l ++ m) i j.
Proof. intros (a & b & c & ->). exists a, b, (c ++ m). now rewrite <- !app_assoc, <- app_comm_cons, <- app_assoc, <- app_comm_cons. Qed.
Lemma before_snoc {X} (l : list X) i j : In i l -> before (l ++ [j]) i j.
Proof. intros I. apply in_split in I. destruct I as (a & b & ->). exists a, b, []. now rewrite <- app_assoc. Qed.
Lemma before_tl {X} (k : X) l i j : k <> i -> before (k :: l) i j -> before l i j.
Proof. intros N ([|y a] & b & c & Q); inversion Q; subst; [congruence|]. now exists a, b, c. Qed.
Lemma before_filter {X} (P : X -> bool) (l : list X) i j : P i = true -> P j = true -> before l i j -> before (filter P l) i j.
Proof.
  intros Pi Pj (a & b & c & ->). exists (filter P a), (filter P b), (filter P c). rewrite filter_app. cbn. rewrite Pi, filter_app. cbn. now rewrite Pj.
Qed.
Lemma before_in {X} (l : list X) i j : before l i j -> In i l /\ In j l.
Proof. intros (a & b & c & ->). split; apply in_or_app; right; [now left|right; apply in_or_app; right; now left]. Qed.
Lemma in_drop i j l : In j (drop i l) <-> In j l /\ j <> i.
Proof. unfold drop. rewrite filter_In, negb_true_iff, Nat.eqb_neq. tauto. Qed.
Lemma in_drop_timer i d j l : In (d, j) (drop_timer i l) <-> In (d, j) l /\ j <> i.
Proof. unfold drop_timer. rewrite filter_In. cbn. rewrite negb_true_iff, Nat.eqb_neq. tauto. Qed.
Lemma nodup_snoc {X} (l : list X) x : NoDup l -> ~ In x l -> NoDup (l ++ [x]).
Proof.
  induction l as [|y l IH]; intros N I; cbn; [constructor; [intros []|constructor]|]. inversion N; subst. constructor.
  - intros Q. apply in_app_or in Q. destruct Q as [Q|[->|[]]]; [contradiction|]. apply I. now left.
  - apply IH; auto. intros Q. apply I. now right.
Qed.
Lemma nodup_timer i : forall l, NoDup (map snd l) -> NoDup (map snd (drop_timer i l)).
Proof.
  induction l as [|[d j] l IH]; cbn; auto. intros N. inversion N; subst. destruct (j =? i); cbn; auto. constructor; auto.
  intros Q. apply H1. apply in_map_iff in Q. destruct Q as ([d' j'] & Q1 & Q2). cbn in Q1. subst j'. apply in_drop_timer in Q2. apply in_map_iff. exists (d', j). tauto.
Qed.

Section Proofs.
Context {V : Type}.
Variable res : nat.
Notation st := (@st V).
Notation event := (@event V).
Notation step := (@step V res).
Notation run := (@run V res).

Lemma run_app (tr1 tr2 : list event) (s : st) : run s (tr1 ++ tr2) = match run s tr1 with Some s1 => run s1 tr2 | None => None end.
Proof. revert s. induction tr1 as [|x tr1 IH]; intros s; cbn; auto. destruct (step s x); auto. Qed.

(** ** What a step does to one task *)
Inductive moves (s : st) (x : event) (i : nat) (t : task) : task -> Prop :=
  | M_same : moves s x i t t
  | M_cancel : x = Cancel i -> (forall o, c_phase t <> Ended o) -> moves s x i t (phase_to t (Ended Cancelled))
  | M_sleep d : x = Run -> hd_error (ready s) = Some i -> c_phase t = Created -> c_delay t = Some d -> d <> 0 -> moves s x i t (phase_to t (Asleep (now s + d)))
  | M_zero : x = Run -> hd_error (ready s) = Some i -> c_phase t = Created -> c_delay t = Some 0 -> moves s x i t (phase_to t Woken)
  | M_type : x = Run -> hd_error (ready s) = Some i -> c_phase t = Created -> c_delay t = None -> moves s x i t (phase_to t (Ended (Raised TypeError)))
  | M_fire d : x = Fire i -> c_phase t = Asleep d -> d <= now s + res -> (forall d' j, In (d', j) (timers s) -> d <= d') -> moves s x i t (phase_to t Woken)
  | M_send g : x = Run -> hd_error (ready s) = Some i -> c_phase t = Woken -> c_kind t = Remote g -> moves s x i t (phase_to t Sending)
  | M_local a : x = Run -> hd_error (ready s) = Some i -> c_phase t = Woken -> c_kind t = Local a -> reach s a = true -> moves s x i t (phase_to t Handed)
  | M_noactor a : x = Run -> hd_error (ready s) = Some i -> c_phase t = Woken -> c_kind t = Local a -> reach s a = false -> moves s x i t (phase_to t (Ended (Raised ActorNotExist)))
  | M_end a : x = Run -> hd_error (ready s) = Some i -> c_phase t = Handed -> c_kind t = Local a -> moves s x i t (phase_to t (Ended Returned))
  | M_hand g : x = Hand i -> c_phase t = Sending -> c_kind t = Remote g -> moves s x i t (phase_to t Handed)
  | M_return g : x = Return i -> c_phase t = Handed -> c_kind t = Remote g -> moves s x i t (phase_to t (Ended Returned))
  | M_fail g e : x = Fail i e -> c_phase t = Sending \/ c_phase t = Handed -> c_kind t = Remote g ->
      moves s x i t (phase_to t (Ended (match g, e with true, ConnectionRefusedError => Returned | _, _ => Raised e end))).

(** ** The invariant *)
Definition queued (t : task) : Prop := c_phase t = Created \/ c_phase t = Woken \/ (c_phase t = Handed /\ exists a, c_kind t = Local a).
Record Inv (s : st) : Prop := {
  v_nodup : NoDup (ready s);
  v_ready : forall i, In i (ready s) <-> exists t, tasks s i = Some t /\ queued t;
  v_tnodup : NoDup (map snd (timers s));
  v_timers : forall d i, In (d, i) (timers s) <-> exists t, tasks s i = Some t /\ c_phase t = Asleep d;
  v_bnodup : NoDup (begun s);
  v_begun : forall i t, tasks s i = Some t -> In i (begun s) -> c_phase t = Sending \/ c_phase t = Handed \/ exists o, c_phase t = Ended o;
  v_begun2 : forall i t, tasks s i = Some t -> c_phase t = Sending \/ c_phase t = Handed -> In i (begun s);
  v_known : forall i, In i (begun s) -> exists t, tasks s i = Some t;
  v_onodup : NoDup (map (fun x => fst (fst x)) (out s));
  v_out : forall i, In i (map (fun x => fst (fst x)) (out s)) -> In i (begun s) /\ forall t, tasks s i = Some t -> c_phase t = Handed \/ exists o, c_phase t = Ended o;
  v_handed : forall i t, tasks s i = Some t -> c_phase t = Handed -> In i (map (fun x => fst (fst x)) (out s)) }.

Lemma inv_fresh v : Inv (fresh v).
Proof.
  split; cbn; try constructor; try (intros; discriminate); try (intros i []); try tauto; try (intros H; exfalso; exact H).
  all: try (intros d i; split; [intros []|intros (t & Q & _); discriminate]).
  all: try (intros (t & Q & _); discriminate).
  all: intros [].
Qed.

(** One task changes, and with it the lists. *)
Lemma nochange (s s' : st) : tasks s' = tasks s -> ready s' = ready s -> timers s' = timers s -> begun s' = begun s -> out s' = out s -> Inv s -> Inv s'.
Proof. intros E1 E2 E3 E4 E5 []. split; rewrite ?E1, ?E2, ?E3, ?E4, ?E5; auto. Qed.

Definition ids (l : list (nat * nat * V)) : list nat := map (fun x => fst (fst x)) l.
Definition late (t : task) : Prop := c_phase t = Sending \/ c_phase t = Handed \/ exists o, c_phase t = Ended o.
Lemma inv_task (s s' : st) i t' : Inv s -> tasks s' = upd (tasks s) i (Some t') ->
  NoDup (ready s') -> (forall j, j <> i -> (In j (ready s') <-> In j (ready s))) -> (In i (ready s') <-> queued t') ->
  NoDup (map snd (timers s')) -> (forall d j, j <> i -> (In (d, j) (timers s') <-> In (d, j) (timers s))) -> (forall d, In (d, i) (timers s') <-> c_phase t' = Asleep d) ->
  (begun s' = begun s \/ (begun s' = begun s ++ [i] /\ ~ In i (begun s))) -> (In i (begun s') -> late t') -> (c_phase t' = Sending \/ c_phase t' = Handed -> In i (begun s')) ->
  (out s' = out s \/ (ids (out s') = ids (out s) ++ [i] /\ ~ In i (ids (out s)))) ->
  (In i (ids (out s')) -> In i (begun s') /\ (c_phase t' = Handed \/ exists o, c_phase t' = Ended o)) -> (c_phase t' = Handed -> In i (ids (out s'))) -> Inv s'.
Proof.
  intros I ET NR RJ RI NT TJ TI B BL BS O OL OH. unfold late in *.
  assert (TO : forall j, j <> i -> tasks s' j = tasks s j) by (intros j N; rewrite ET; now apply upd_other).
  assert (TS : tasks s' i = Some t') by (rewrite ET; apply upd_same).
  assert (BJ : forall j, j <> i -> (In j (begun s') <-> In j (begun s))).
  { intros j N. destruct B as [->|(-> & _)]; [tauto|]. rewrite in_app_iff. cbn. intuition congruence. }
  assert (OJ : forall j, j <> i -> (In j (ids (out s')) <-> In j (ids (out s)))).
  { intros j N. destruct O as [->|(-> & _)]; [tauto|]. rewrite in_app_iff. cbn. intuition congruence. }
  split; auto.
  - intros j. destruct (Nat.eq_dec j i) as [->|N].
    + rewrite RI, TS. split; [eauto|]. intros (t & Q & H). now inversion Q; subst.
    + rewrite RJ by auto. rewrite TO by auto. apply v_ready; auto.
  - intros d j. destruct (Nat.eq_dec j i) as [->|N].
    + rewrite TI, TS. split; [eauto|]. intros (t & Q & H). now inversion Q; subst.
    + rewrite TJ by auto. rewrite TO by auto. apply v_timers; auto.
  - destruct B as [->|(-> & B)]; [apply I|]. apply nodup_snoc; auto. apply I.
  - intros j t Q H. destruct (Nat.eq_dec j i) as [->|N].
    + rewrite TS in Q. inversion Q; subst. auto.
    + apply (v_begun s I j); [now rewrite <- TO|]. now apply BJ.
  - intros j t Q H. destruct (Nat.eq_dec j i) as [->|N].
    + rewrite TS in Q. inversion Q; subst. auto.
    + apply BJ; auto. apply (v_begun2 s I j t); [now rewrite <- TO|auto].
  - intros j H. destruct (Nat.eq_dec j i) as [->|N]; [eauto|]. rewrite TO by auto. apply (v_known s I). now apply BJ.
  - fold (ids (out s')). destruct O as [Q|(Q & O)]; [rewrite Q; apply I|]. rewrite Q. apply nodup_snoc; auto. apply I.
  - intros j H. fold (ids (out s')) in H. destruct (Nat.eq_dec j i) as [->|N].
    + destruct (OL H) as (O1 & O2). split; auto. intros t Q. rewrite TS in Q. now inversion Q; subst.
    + apply OJ in H; auto. destruct (v_out s I j H) as (O1 & O2). split; [now apply BJ|]. rewrite TO by auto. auto.
  - intros j t Q H. fold (ids (out s')). destruct (Nat.eq_dec j i) as [->|N].
    + rewrite TS in Q. inversion Q; subst. auto.
    + apply OJ; auto. apply (v_handed s I j t); [now rewrite <- TO|auto].
Qed.

Lemma notin_begun (s : st) i t : Inv s -> tasks s i = Some t -> ~ late t -> ~ In i (begun s).
Proof. intros I E N J. apply N. apply (v_begun s I i t E J). Qed.
Lemma notin_out (s : st) i t : Inv s -> tasks s i = Some t -> ~ (c_phase t = Handed \/ exists o, c_phase t = Ended o) -> ~ In i (ids (out s)).
Proof. intros I E N J. apply N. now apply (v_out s I i J). Qed.
Lemma notin_ready (s : st) i t : Inv s -> tasks s i = Some t -> ~ queued t -> ~ In i (ready s).
Proof. intros I E N J. apply N. apply (v_ready s I) in J. destruct J as (t' & Q & H). congruence. Qed.
Lemma notin_timers (s : st) i t d : Inv s -> tasks s i = Some t -> c_phase t <> Asleep d -> ~ In (d, i) (timers s).
Proof. intros I E N J. apply N. apply (v_timers s I) in J. destruct J as (t' & Q & H). congruence. Qed.

(** Everything a step can be. *)
Inductive kinds (s : st) : event -> st -> Prop :=
  | K_call i k a d : tasks s i = None -> kinds s (Call i k a d) (set_ready (put s i (mkT k a d Created)) (ready s ++ [i]))
  | K_cancel i t : tasks s i = Some t -> (forall o, c_phase t <> Ended o) ->
      kinds s (Cancel i) (set_timers (set_ready (put s i (phase_to t (Ended Cancelled))) (drop i (ready s))) (drop_timer i (timers s)))
  | K_run i t q : ready s = i :: q -> tasks s i = Some t -> kinds s Run (turn (set_ready s q) i t)
  | K_fire i t d : tasks s i = Some t -> c_phase t = Asleep d -> d <= now s + res -> (forall d' j, In (d', j) (timers s) -> d <= d') ->
      kinds s (Fire i) (set_timers (set_ready (put s i (phase_to t Woken)) (ready s ++ [i])) (drop_timer i (timers s)))
  | K_hand i t g : tasks s i = Some t -> c_phase t = Sending -> c_kind t = Remote g -> kinds s (Hand i) (put (hand s i (c_arg t)) i (phase_to t Handed))
  | K_return i t g : tasks s i = Some t -> c_phase t = Handed -> c_kind t = Remote g -> kinds s (Return i) (put s i (phase_to t (Ended Returned)))
  | K_fail i t g e : tasks s i = Some t -> c_phase t = Sending \/ c_phase t = Handed -> c_kind t = Remote g -> kinds s (Fail i e) (fail s i t e)
  | K_tick n s' : s' = mkSt (now s + n) (tasks s) (ready s) (timers s) (begun s) (out s) (reach s) (val s) (logged s) -> kinds s (Tick n) s'
  | K_reach a b s' : s' = mkSt (now s) (tasks s) (ready s) (timers s) (begun s) (out s) (upd (reach s) a b) (val s) (logged s) -> kinds s (Reach a b) s'
  | K_change a v s' : s' = mkSt (now s) (tasks s) (ready s) (timers s) (begun s) (out s) (reach s) (upd (val s) a v) (logged s) -> kinds s (Change a v) s'.
Lemma step_kinds (s : st) x s' : step s x = Some s' -> kinds s x s'.
Proof.
  intros S. destruct x as [i k a d|i| |i|n|i|i|i e|a b|a v]; cbn in S.
  - destruct (tasks s i) eqn:E; [discriminate|]. inversion S. now apply K_call.
  - destruct (tasks s i) as [t|] eqn:E; [|discriminate]. destruct (c_phase t) eqn:P; inversion S; apply K_cancel; auto; intros o; congruence.
  - destruct (ready s) as [|i q] eqn:R; [discriminate|]. destruct (tasks s i) as [t|] eqn:E; [|discriminate]. inversion S. now apply (K_run s i t q).
  - destruct (tasks s i) as [t|] eqn:E; [|discriminate]. destruct (c_phase t) as [|d| | | |] eqn:P; try discriminate.
    destruct (d <=? now s + res) eqn:L; [|discriminate]. destruct (forallb _ _) eqn:F; [|discriminate]. inversion S. apply Nat.leb_le in L.
    apply (K_fire s i t d); auto. intros d' j J. rewrite forallb_forall in F. specialize (F _ J). now apply Nat.leb_le in F.
  - inversion S. now apply K_tick.
  - destruct (tasks s i) as [[[g|a] a' d []]|] eqn:E; try discriminate. inversion S. now apply (K_hand s i (mkT (Remote g) a' d Sending) g).
  - destruct (tasks s i) as [[[g|a] a' d []]|] eqn:E; try discriminate. inversion S. now apply (K_return s i (mkT (Remote g) a' d Handed) g).
  - destruct (tasks s i) as [t|] eqn:E; [|discriminate]. destruct (remote t) eqn:RM; [|discriminate]. unfold remote in RM. destruct (c_kind t) as [g|] eqn:K; [|discriminate].
    destruct (c_phase t) eqn:P; try discriminate; inversion S; apply (K_fail s i t g); auto.
  - inversion S. now apply K_reach.
  - inversion S. now apply K_change.
Qed.
Lemma fail_eq (s : st) i t e : exists o l, fail s i t e = put (mkSt (now s) (tasks s) (ready s) (timers s) (begun s) (out s) (reach s) (val s) l) i (phase_to t (Ended o)) /\
  ((o = Raised e /\ (c_kind t = Remote true -> e <> ConnectionRefusedError)) \/ (o = Returned /\ c_kind t = Remote true /\ e = ConnectionRefusedError)).
Proof.
  unfold fail. destruct s as [a b c d e0 f g h l]. destruct (c_kind t) as [[]|] eqn:K; [destruct e|..]; cbn;
    (eexists; eexists; split; [reflexivity|]); try (left; split; [reflexivity|congruence]); right; auto.
Qed.

Lemma queued_to t p : queued (phase_to t p) <-> p = Created \/ p = Woken \/ (p = Handed /\ exists a, c_kind t = Local a).
Proof. unfold queued, phase_to. cbn. tauto. Qed.
Lemma late_to t p : late (phase_to t p) <-> p = Sending \/ p = Handed \/ exists o, p = Ended o.
Proof. unfold late, phase_to. cbn. tauto. Qed.
(** A task ends, or is sent, or is handed over, outside the queue and the timers. *)
Lemma inv_quiet (s s' : st) i t p : Inv s -> tasks s i = Some t -> ~ queued t -> (forall d, c_phase t <> Asleep d) ->
  tasks s' = upd (tasks s) i (Some (phase_to t p)) -> ready s' = ready s -> timers s' = timers s -> begun s' = begun s ->
  (out s' = out s \/ (ids (out s') = ids (out s) ++ [i] /\ ~ In i (ids (out s)))) ->
  ~ queued (phase_to t p) -> (forall d, p <> Asleep d) -> late (phase_to t p) -> (p = Sending -> In i (begun s)) -> (p = Handed -> In i (begun s)) ->
  (In i (ids (out s')) -> In i (begun s) /\ (p = Handed \/ exists o, p = Ended o)) -> (p = Handed -> In i (ids (out s'))) -> Inv s'.
Proof.
  intros I E NQ NA ET ER EM EB O NQ' NA' L B1 B2 O1 O2. apply (inv_task s s' i (phase_to t p)); auto; rewrite ?ER, ?EM, ?EB; try (now apply I); try tauto.
  - split; [|tauto]. intros J. now elim (notin_ready s i t I E NQ).
  - intros d. split; [intros J; now elim (notin_timers s i t d I E (NA d))|]. intros J. now elim (NA' d).
Qed.
Lemma inv_step (s : st) x s' : Inv s -> step s x = Some s' -> Inv s'.
Proof.
  intros I S. apply step_kinds in S. destruct S as [i k a d E|i t E NE|i t q R E|i t d E P L M|i t g E P K|i t g E P K|i t g e E P K|n s' ->|a b s' ->|a v s' ->].
  - set (t' := mkT k a d Created). assert (NB : ~ In i (begun s)) by (intros J; destruct (v_known s I i J) as (t & Q); congruence).
    assert (NO : ~ In i (ids (out s))) by (intros J; apply NB; now apply (v_out s I)).
    assert (NR : ~ In i (ready s)) by (intros J; apply (v_ready s I) in J; destruct J as (t & Q & _); congruence).
    apply (inv_task s _ i t'); auto; cbn; try (now apply I); try tauto.
    + apply nodup_snoc; auto. apply I.
    + intros j N. rewrite in_app_iff. cbn. intuition congruence.
    + split; intros _; [left; reflexivity|]. apply in_or_app. right. now left.
    + intros d'. split; [intros J; apply (v_timers s I) in J; destruct J as (t & Q & _); congruence|discriminate].
    + intros [|]; discriminate.
    + discriminate.
  - apply (inv_task s _ i (phase_to t (Ended Cancelled))); auto; cbn.
    + apply NoDup_filter. apply I.
    + intros j N. rewrite in_drop. tauto.
    + rewrite in_drop, queued_to. split; [tauto|]. intros [|[|(Q & _)]]; discriminate.
    + apply nodup_timer. apply I.
    + intros d j N. rewrite in_drop_timer. tauto.
    + intros d. rewrite in_drop_timer. split; [tauto|discriminate].
    + intros _. right. right. cbn. eauto.
    + intros [|]; discriminate.
    + intros J. split; [now apply (v_out s I)|eauto].
    + discriminate.
  - assert (ND : NoDup (i :: q)) by (rewrite <- R; apply I). inversion ND as [|? ? NI NQ]; subst.
    assert (QD : queued t) by (assert (J : In i (ready s)) by (rewrite R; now left); apply (v_ready s I) in J; destruct J as (t' & Q & H); congruence).
    assert (RJ : forall j, j <> i -> (In j q <-> In j (ready s))) by (intros j N; rewrite R; cbn; intuition congruence).
    assert (TN : forall d, c_phase t <> Asleep d) by (intros d Q; unfold queued in QD; rewrite Q in QD; destruct QD as [|[|(QD & _)]]; discriminate).
    assert (TI : forall d, ~ In (d, i) (timers s)) by (intros d; now apply (notin_timers s i t)).
    assert (BI : c_phase t = Created \/ c_phase t = Woken -> ~ In i (begun s)) by (intros H; apply (notin_begun s i t I E); intros [Q|[Q|(o & Q)]]; rewrite Q in H; destruct H; discriminate).
    assert (OI : c_phase t = Created \/ c_phase t = Woken -> ~ In i (ids (out s))) by (intros H J; apply (BI H); now apply (v_out s I)).
    (** ending *)
    assert (FIN : forall o l b', b' = begun s \/ (b' = begun s ++ [i] /\ ~ In i (begun s)) ->
      Inv (put (mkSt (now s) (tasks s) q (timers s) b' (out s) (reach s) (val s) l) i (phase_to t (Ended o)))).
    { intros o l b' HB. apply (inv_task s _ i (phase_to t (Ended o))); auto; cbn; try (now apply I); try tauto.
      + rewrite queued_to. split; [tauto|]. intros [|[|(Q & _)]]; discriminate.
      + intros d. split; [intros J; now elim (TI d)|discriminate].
      + intros _. right. right. cbn. eauto.
      + intros [|]; discriminate.
      + intros J. split; [|eauto]. apply (v_out s I) in J. destruct HB as [->|(-> & _)]; [tauto|]. apply in_or_app. tauto.
      + discriminate. }
    unfold turn. destruct (c_phase t) eqn:P; try (exfalso; destruct QD as [Q|[Q|(Q & _)]]; congruence).
    + destruct (c_delay t) as [[|d]|] eqn:D.
      * apply (inv_task s _ i (phase_to t Woken)); auto; cbn; try (now apply I); try tauto.
        -- now apply nodup_snoc.
        -- intros j N. rewrite in_app_iff. cbn. rewrite <- RJ by auto. intuition congruence.
        -- rewrite queued_to. split; [tauto|]. intros _. apply in_or_app. right. now left.
        -- intros d. split; [intros J; now elim (TI d)|discriminate].
        -- intros [|]; discriminate.
        -- discriminate.
      * apply (inv_task s _ i (phase_to t (Asleep (now s + Datatypes.S d)))); auto; cbn -[Nat.add]; try (now apply I); try tauto.
        -- rewrite queued_to. split; [tauto|]. intros [|[|(Q & _)]]; discriminate.
        -- rewrite map_app. apply nodup_snoc; [apply I|]. intros J. apply in_map_iff in J. destruct J as ([d' j] & Q & J). cbn in Q. subst j. now elim (TI d').
        -- intros d' j N. rewrite in_app_iff. cbn. intuition congruence.
        -- intros d'. rewrite in_app_iff. cbn -[Nat.add]. split; [intros [J|[J|[]]]; [now elim (TI d')|inversion J; reflexivity]|]. intros J. right. left. congruence.
        -- intros [|]; discriminate.
        -- discriminate.
      * destruct (fail_eq (set_ready s q) i t TypeError) as (o & l & -> & _). apply FIN. now left.
    + destruct (c_kind t) as [g|a] eqn:K.
      * apply (inv_task s _ i (phase_to t Sending)); auto; cbn; try (now apply I); try tauto.
        -- rewrite queued_to. split; [tauto|]. intros [|[|(Q & _)]]; discriminate.
        -- intros d. split; [intros J; now elim (TI d)|discriminate].
        -- intros _. now left.
        -- intros _. apply in_or_app. right. now left.
        -- discriminate.
      * cbn. destruct (reach s a) eqn:RA.
        -- apply (inv_task s _ i (phase_to t Handed)); auto; cbn; try (now apply I); try tauto.
           ++ now apply nodup_snoc.
           ++ intros j N. rewrite in_app_iff. cbn. rewrite <- RJ by auto. intuition congruence.
           ++ rewrite queued_to. split; [intros _; right; right; split; eauto|]. intros _. apply in_or_app. right. now left.
           ++ intros d. split; [intros J; now elim (TI d)|discriminate].
           ++ intros _. right. now left.
           ++ intros _. apply in_or_app. right. now left.
           ++ right. unfold ids. rewrite map_app. cbn. split; auto.
           ++ intros _. split; [|now left]. apply in_or_app. right. now left.
           ++ intros _. unfold ids. rewrite map_app. apply in_or_app. right. now left.
        -- destruct (fail_eq (begin (set_ready s q) i) i t ActorNotExist) as (o & l & -> & _). apply FIN. right. auto.
    + destruct s as [s1 s2 s3 s4 s5 s6 s7 s8 s9]. cbn in *. apply (FIN Returned s9). now left.
  - apply (inv_task s _ i (phase_to t Woken)); auto; cbn; try (now apply I); try tauto.
    + apply nodup_snoc; [apply I|]. apply (notin_ready s i t I E). unfold queued. rewrite P. intros [|[|(Q & _)]]; discriminate.
    + intros j N. rewrite in_app_iff. cbn. intuition congruence.
    + rewrite queued_to. split; [tauto|]. intros _. apply in_or_app. right. now left.
    + apply nodup_timer. apply I.
    + intros d' j N. rewrite in_drop_timer. tauto.
    + intros d'. rewrite in_drop_timer. split; [tauto|discriminate].
    + intros J. apply (v_begun s I i t E) in J. rewrite P in J. destruct J as [|[|(o & J)]]; discriminate.
    + intros [|]; discriminate.
    + intros J. apply (v_out s I) in J. destruct J as (_ & J). destruct (J t E) as [Q|(o & Q)]; rewrite P in Q; discriminate.
    + discriminate.
  - assert (B : In i (begun s)) by (apply (v_begun2 s I i t E); now left).
    apply (inv_quiet s _ i t Handed); auto; cbn; try discriminate; try (unfold queued; rewrite P; intros [|[|(Q & _)]]; discriminate); try congruence.
    + right. unfold ids. rewrite map_app. split; auto. apply (notin_out s i t I E). rewrite P. intros [|(o & Q)]; discriminate.
    + rewrite queued_to. intros [|[|(_ & a & Q)]]; congruence.
    + rewrite late_to. tauto.
    + intros _. unfold ids. rewrite map_app. apply in_or_app. right. now left.
  - assert (B : In i (begun s)) by (apply (v_begun2 s I i t E); now right).
    apply (inv_quiet s _ i t (Ended Returned)); auto; cbn; try discriminate; try congruence.
    + unfold queued. rewrite P, K. intros [|[|(_ & a & Q)]]; discriminate.
    + rewrite queued_to. intros [|[|(Q & _)]]; discriminate.
    + rewrite late_to. eauto.
    + intros _. split; eauto.
  - assert (B : In i (begun s)) by (apply (v_begun2 s I i t E); auto).
    destruct (fail_eq s i t e) as (o & l & -> & _).
    apply (inv_quiet s _ i t (Ended o)); auto; cbn; try discriminate.
    + unfold queued. rewrite K. intros [Q|[Q|(_ & a & Q)]]; [rewrite Q in P; destruct P; discriminate|rewrite Q in P; destruct P; discriminate|discriminate].
    + intros d Q. rewrite Q in P. destruct P; discriminate.
    + rewrite queued_to. intros [|[|(Q & _)]]; discriminate.
    + rewrite late_to. eauto.
    + intros _. split; eauto.
  - now apply (nochange s).
  - now apply (nochange s).
  - now apply (nochange s).
Qed.
Lemma inv_run (tr : list event) : forall s s' : st, Inv s -> run s tr = Some s' -> Inv s'.
Proof.
  induction tr as [|x tr IH]; intros s s' I E; cbn in E; [now inversion E; subst|]. destruct (step s x) as [s1|] eqn:S; [|discriminate].
  apply (IH s1); auto. now apply (inv_step s x).
Qed.
Lemma inv_reached v (tr : list event) (s : st) : run (fresh v) tr = Some s -> Inv s.
Proof. intros E. apply (inv_run tr (fresh v)); auto. apply inv_fresh. Qed.

(** ** Times *)
(** A delayed call made at time [t0] with delay [d] wakes up and is handed over no earlier than the clock's
    resolution before [t0 + d]. *)
Definition timely (i t0 d : nat) (s : st) : Prop :=
  t0 <= now s /\ (exists t, tasks s i = Some t /\ c_delay t = Some d /\
    match c_phase t with
    | Asleep due => t0 + d <= due
    | Woken | Sending | Handed => t0 + d <= now s + res
    | _ => True
    end) /\
  (forall t v, In (i, t, v) (out s) -> t0 + d <= t + res).
Lemma tasks_fail (s : st) i t e : exists o, tasks (fail s i t e) = upd (tasks s) i (Some (phase_to t (Ended o))) /\
  now (fail s i t e) = now s /\ out (fail s i t e) = out s /\ begun (fail s i t e) = begun s /\ ready (fail s i t e) = ready s /\ timers (fail s i t e) = timers s /\ val (fail s i t e) = val s.
Proof. destruct (fail_eq s i t e) as (o & l & -> & _). exists o. repeat split. Qed.

(** One turn, in general. *)
Inductive turns (s : st) (i : nat) (t : task) (q : list nat) : st -> Prop :=
  | T_zero : c_phase t = Created -> c_delay t = Some 0 -> turns s i t q (set_ready (put (set_ready s q) i (phase_to t Woken)) (q ++ [i]))
  | T_sleep d : c_phase t = Created -> c_delay t = Some d -> d <> 0 -> turns s i t q (set_timers (put (set_ready s q) i (phase_to t (Asleep (now s + d)))) (timers s ++ [(now s + d, i)]))
  | T_type : c_phase t = Created -> c_delay t = None -> turns s i t q (fail (set_ready s q) i t TypeError)
  | T_send g : c_phase t = Woken -> c_kind t = Remote g -> turns s i t q (put (begin (set_ready s q) i) i (phase_to t Sending))
  | T_local a : c_phase t = Woken -> c_kind t = Local a -> reach s a = true ->
      turns s i t q (set_ready (put (hand (begin (set_ready s q) i) i (c_arg t)) i (phase_to t Handed)) (q ++ [i]))
  | T_noactor a : c_phase t = Woken -> c_kind t = Local a -> reach s a = false -> turns s i t q (fail (begin (set_ready s q) i) i t ActorNotExist)
  | T_end a : c_phase t = Handed -> c_kind t = Local a -> turns s i t q (put (set_ready s q) i (phase_to t (Ended Returned))).
Lemma turn_turns (s : st) i t q : Inv s -> ready s = i :: q -> tasks s i = Some t -> turns s i t q (turn (set_ready s q) i t).
Proof.
  intros I R E. assert (QD : queued t) by (assert (J : In i (ready s)) by (rewrite R; now left); apply (v_ready s I) in J; destruct J as (t' & Q & H); congruence).
  unfold turn. destruct (c_phase t) eqn:P; try (exfalso; destruct QD as [Q|[Q|(Q & _)]]; congruence).
  - destruct (c_delay t) as [[|d]|] eqn:D; [now apply T_zero|now apply (T_sleep s i t q (Datatypes.S d))|now apply T_type].
  - destruct (c_kind t) as [g|a] eqn:K; [now apply (T_send s i t q g)|]. cbn. destruct (reach s a) eqn:RA; [now apply (T_local s i t q a)|now apply (T_noactor s i t q a)].
  - destruct QD as [Q|[Q|(Q & a & K)]]; try congruence. now apply (T_end s i t q a).
Qed.
Lemma timely_step i t0 d (s : st) x s' : Inv s -> timely i t0 d s -> step s x = Some s' -> timely i t0 d s'.
Proof.
  intros I (H1 & (t & H2 & H3 & H4) & H5) S. apply step_kinds in S.
  assert (SAME : forall t', tasks s' i = Some t' -> c_delay t' = Some d -> now s' = now s -> out s' = out s ->
    match c_phase t' with Asleep due => t0 + d <= due | Woken | Sending | Handed => t0 + d <= now s + res | _ => True end -> timely i t0 d s').
  { intros t' E' D' NW O' PH. split; [lia|]. split; [|now rewrite O']. exists t'. rewrite NW. auto. }
  destruct S as [j k a d' E|j u E NE|j u q R E|j u d' E P L M|j u g E P K|j u g E P K|j u g e E P K|n s' ->|a b s' ->|a v s' ->].
  - assert (j <> i) by congruence. apply (SAME t); cbn; auto. now rewrite upd_other by auto.
  - destruct (Nat.eq_dec j i) as [->|N]; [apply (SAME (phase_to t (Ended Cancelled)))|apply (SAME t)]; cbn; auto; rewrite ?upd_same, ?upd_other by auto; auto. congruence.
  - assert (E' : j = i -> u = t) by (intros ->; congruence).
    destruct (turn_turns s j u q I R E) as [P D|d' P D ND|P D|g P K|a P K RA|a P K RA|a P K].
    all: destruct (Nat.eq_dec j i) as [->|N]; [rewrite (E' eq_refl) in *|].
    all: try (match goal with |- timely _ _ _ (fail ?s0 ?i0 ?t1 ?e0) => destruct (tasks_fail s0 i0 t1 e0) as (o & F1 & F2 & F3 & _) end).
    all: try (apply (SAME t); cbn; rewrite ?F1, ?F2, ?F3; auto; try (now rewrite upd_other by auto); fail).
    + apply (SAME (phase_to t Woken)); cbn; rewrite ?upd_same; auto. rewrite D in H3. inversion H3. lia.
    + apply (SAME (phase_to t (Asleep (now s + d')))); cbn; rewrite ?upd_same; auto. rewrite D in H3. inversion H3. lia.
    + apply (SAME (phase_to t (Ended o))); cbn; rewrite ?F1, ?F2, ?F3; cbn; rewrite ?upd_same; auto.
    + apply (SAME (phase_to t Sending)); cbn; rewrite ?upd_same; auto. now rewrite P in H4.
    + split; [auto|]. split; [exists (phase_to t Handed); cbn; rewrite upd_same; repeat split; auto; now rewrite P in H4|].
      cbn. intros t1 v J. apply in_app_or in J. destruct J as [J|[J|[]]]; [eauto|]. inversion J; subst. now rewrite P in H4.
    + split; [auto|]. split; [exists t; cbn; rewrite upd_other by auto; auto|].
      cbn. intros t1 v J. apply in_app_or in J. destruct J as [J|[J|[]]]; [eauto|]. inversion J; subst. congruence.
    + apply (SAME (phase_to t (Ended o))); cbn; rewrite ?F1, ?F2, ?F3; cbn; rewrite ?upd_same; auto.
    + apply (SAME (phase_to t (Ended Returned))); cbn; rewrite ?upd_same; auto.
  - destruct (Nat.eq_dec j i) as [->|N]; [apply (SAME (phase_to t Woken))|apply (SAME t)]; cbn; auto; rewrite ?upd_same, ?upd_other by auto; auto; try congruence.
    assert (u = t) by congruence. subst u. rewrite P in H4. lia.
  - split; [auto|]. split.
    + cbn. destruct (Nat.eq_dec j i) as [->|N]; rewrite ?upd_same, ?upd_other by auto; [|eauto]. assert (u = t) by congruence. subst u. rewrite P in H4. eauto.
    + cbn. intros t1 v J. apply in_app_or in J. destruct J as [J|[J|[]]]; [eauto|]. inversion J; subst. assert (u = t) by congruence. subst u. now rewrite P in H4.
  - destruct (Nat.eq_dec j i) as [->|N]; [apply (SAME (phase_to t (Ended Returned)))|apply (SAME t)]; cbn; auto; rewrite ?upd_same, ?upd_other by auto; auto; try congruence.
  - destruct (tasks_fail s j u e) as (o & F1 & F2 & F3 & _). destruct (Nat.eq_dec j i) as [->|N].
    + assert (u = t) by congruence. subst u. apply (SAME (phase_to t (Ended o))); rewrite ?F1, ?F2, ?F3; auto; rewrite ?upd_same; cbn; auto.
    + apply (SAME t); rewrite ?F1, ?F2, ?F3; auto; rewrite ?upd_other by auto; auto.
  - split; [cbn; lia|]. split; [|exact H5]. exists t. cbn. split; auto. split; auto. destruct (c_phase t); auto; lia.
  - split; [exact H1|]. split; [eauto|exact H5].
  - split; [exact H1|]. split; [eauto|exact H5].
Qed.
Lemma timely_run i t0 d (tr : list event) : forall s s' : st, Inv s -> timely i t0 d s -> run s tr = Some s' -> timely i t0 d s'.
Proof.
  induction tr as [|x tr IH]; intros s s' I T E; cbn in E; [now inversion E; subst|]. destruct (step s x) as [s1|] eqn:S; [|discriminate].
  apply (IH s1); auto; [now apply (inv_step s x)|now apply (timely_step i t0 d s x)].
Qed.
End Proofs.
