(** * AFileEventProps: C74 (continued): progress, events, iteration over lines

    Reading guide: see AFileProps.v. *)
From Coq Require Import List Bool Arith Lia.
From Verif Require Import AFileModel AFileSpec AFileProofs AFileProps.
Import ListNotations.

Section Props.
Context {F Op R : Type} (exec : F -> Op -> F * R).
Notation st := (@st F Op R).
Notation event := (@event Op).
Notation step := (@step F Op R exec).
Notation run := (@run F Op R exec).

(** A thread that can return can be made to. *)
Lemma can_finish h calls (s : st) t : Inv h calls s -> In t (running s) -> ready t = true -> exists s', step s (Finish (j_id (t_job t))) = Some s'.
Proof.
  intros I IT RT. cbn [AFileModel.step]. destruct (take (j_id (t_job t)) (running s)) as [[u r]|] eqn:T.
  - apply take_spec in T. destruct T as (Ti & a & b & Ra & _ & NA).
    assert (u = t).
    { rewrite Ra in IT. apply in_app_or in IT. destruct IT as [IT|[IT|IT]]; auto.
      - now elim (NA t IT).
      - exfalso. pose proof (i_nodup _ _ _ I) as ND. unfold rids in ND. rewrite Ra, map_app in ND. cbn [map] in ND. rewrite app_assoc in ND.
        apply NoDup_remove_2 in ND. apply ND. apply in_or_app. right. rewrite Ti. now apply in_map with (f := fun t => j_id (t_job t)). }
    subst u. rewrite RT. eauto.
  - exfalso. apply take_in in T; auto. now apply in_map with (f := fun t => j_id (t_job t)).
Qed.

(** ** Progress *)
(** As long as something is to be done, a thread can take or finish an operation - unless all
    that is being done are waits for events that are not set, and there is nothing else to do or
    no thread left. *)
Theorem C74_progress : forall k fs h tr s, run (fresh k fs h) tr = Some s -> queue s <> [] \/ running s <> [] ->
  (exists s', step s Start = Some s') \/ (exists i s', step s (Finish i) = Some s') \/
  ((forall t, In t (running s) -> exists e, j_what (t_job t) = WaitFor e /\ ready t = false) /\ (queue s = [] \/ k <= length (running s))).
Proof.
  intros k fs h tr s E B. destruct (inv_run exec _ _ _ _ _ (inv_fresh k fs h) E) as (c & I).
  assert (TH : threads s = k) by (rewrite (threads_run exec _ _ _ E); reflexivity).
  destruct (existsb (fun t => ready t) (running s)) eqn:X.
  - right. left. apply existsb_exists in X. destruct X as (t & IT & RT). exists (j_id (t_job t)). now apply (can_finish _ _ s t I).
  - assert (ALL : forall t, In t (running s) -> exists e, j_what (t_job t) = WaitFor e /\ ready t = false).
    { intros t IT. assert (RT : ready t = false).
      { destruct (ready t) eqn:RT; auto. assert (existsb (fun t => ready t) (running s) = true) by (apply existsb_exists; eauto). congruence. }
      destruct (i_ready _ _ _ I t IT RT) as (e & W). eauto. }
    destruct (queue s) as [|j q] eqn:Q; [right; right; auto|]. destruct (Nat.ltb_spec (length (running s)) k) as [L|L].
    + left. cbn [AFileModel.step]. rewrite Q, TH. apply Nat.ltb_lt in L. rewrite L. eauto.
    + right. right. auto.
Qed.

(** So waits for events can hold up everything else: once they occupy all threads, no operation is
    carried out - for ever, if no event is set, even when those who wait are cancelled. *)
Lemma blocked_step s x s' : length (running s) = threads s -> (forall t, In t (running s) -> ready t = false) -> (forall e, x <> SetE e) ->
  step s x = Some s' -> length (running s') = threads s' /\ (forall t, In t (running s') -> ready t = false) /\
  (forall i v, In (i, Value v) (outcomes s') -> In (i, Value v) (outcomes s)).
Proof.
  intros L B NS S. destruct x as [i w o|w o|i e|e|e| |i|i|w]; cbn [AFileModel.step] in S.
  - destruct (unused s i); [|discriminate]. inversion S; subst. unfold call. destruct (handle s w); cbn; repeat split; auto.
    intros j v J. apply in_app_or in J. destruct J as [J|[J|[]]]; auto. discriminate.
  - inversion S; subst. unfold direct. destruct (handle s w); cbn; auto.
  - destruct (unused s i); [|discriminate]. inversion S; subst. cbn. auto.
  - now elim (NS e).
  - inversion S; subst. cbn. auto.
  - destruct (queue s); [discriminate|]. rewrite L, Nat.ltb_irrefl in S. discriminate.
  - destruct (take i (running s)) as [[t r]|] eqn:T; [|discriminate]. apply take_spec in T. destruct T as (_ & a & b & Ra & _ & _).
    rewrite (B t) in S; [discriminate|]. rewrite Ra. apply in_or_app. right. now left.
  - destruct (existsb _ _).
    + inversion S; subst. cbn. repeat split; auto. intros j v J. apply in_app_or in J. destruct J as [J|[J|[]]]; auto. discriminate.
    + destruct (take i (running s)) as [[t r]|]; [|discriminate]. destruct (left t); [discriminate|]. inversion S; subst. cbn. rewrite map_length. repeat split; auto.
      * intros u J. apply in_map_iff in J. destruct J as (y & <- & J). destruct (with_id i y); cbn; auto.
      * intros j v J. apply in_app_or in J. destruct J as [J|[J|[]]]; auto. discriminate.
  - inversion S; subst. cbn. auto.
Qed.
Lemma blocked_run tr : forall s s', length (running s) = threads s -> (forall t, In t (running s) -> ready t = false) -> (forall e, ~ In (SetE e) tr) ->
  run s tr = Some s' -> forall i v, In (i, Value v) (outcomes s') -> In (i, Value v) (outcomes s).
Proof.
  induction tr as [|x tr IH]; intros s s' L B NS E i v J; cbn [AFileModel.run] in E; [now inversion E; subst|].
  destruct (step s x) as [s1|] eqn:S; [|discriminate].
  destruct (blocked_step s x s1 L B) as (L1 & B1 & O1); auto; [intros e ->; apply (NS e); now left|].
  apply O1. apply (IH s1 s' L1 B1); auto. intros e Q. apply (NS e). now right.
Qed.
(** [k] tasks wait for event 0. *)
Definition waits (k : nat) : list event := flat_map (fun i => [Await i 0; Start]) (seq 0 k).
Lemma waits_block k fs h : forall n, n <= k -> exists s, run (fresh k fs h) (waits n) = Some s /\
  threads s = k /\ queue s = [] /\ outcomes s = [] /\ flag s 0 = false /\ map (fun t => j_id (t_job t)) (running s) = seq 0 n /\ (forall t, In t (running s) -> ready t = false).
Proof.
  unfold waits. induction n as [|n IH]; intros L.
  - exists (fresh k fs h). cbn. repeat split; auto. intros t [].
  - destruct (IH ltac:(lia)) as (s & E & T & Q & O & FL & R1 & RD). rewrite seq_S, flat_map_app, run_app, E. cbn [plus flat_map app AFileModel.run AFileModel.step].
    assert (U : unused s n = true).
    { apply unused_spec. unfold qids, rids, oids. rewrite Q, O, R1. cbn. repeat split; auto. rewrite in_seq. lia. }
    rewrite U. unfold set_queue at 1. cbn [queue]. rewrite Q. cbn [app].
    assert (LR : length (running s) = n) by (rewrite <- (map_length (fun t => j_id (t_job t)) (running s)), R1; apply seq_length).
    unfold set_queue. cbn [running threads flag files handle outcomes]. rewrite LR, T. replace (n <? k) with true by (symmetry; apply Nat.ltb_lt; lia). eexists. split; [reflexivity|].
    unfold begin. cbn. rewrite FL. repeat split; auto.
    + rewrite map_app, R1. reflexivity.
    + intros t J. apply in_app_or in J. destruct J as [J|[<-|[]]]; auto.
Qed.
Theorem C74_waits_hold_up_files_refuted : forall k fs h, exists s, run (fresh k fs h) (waits k) = Some s /\
  forall tr s', run s tr = Some s' -> (forall e, ~ In (SetE e) tr) -> forall i v, ~ In (i, Value v) (outcomes s').
Proof.
  intros k fs h. destruct (waits_block k fs h k (le_n k)) as (s & E & T & _ & O & _ & R1 & RD). exists s. split; [exact E|].
  intros tr s' E' NS i v J. apply (blocked_run tr s s') in J; auto.
  - rewrite O in J. destruct J.
  - rewrite T. rewrite <- (map_length (fun t => j_id (t_job t)) (running s)), R1. apply seq_length.
Qed.

(** ** Events *)
Lemma wait_aux k fs h tr : forall s, run (fresh k fs h) tr = Some s ->
  let was_set i e := exists a b s1, tr = a ++ b /\ In (Await i e) a /\ run (fresh k fs h) a = Some s1 /\ flag s1 e = true in
  (forall j e, In j (queue s) -> j_what j = WaitFor e -> In (Await (j_id j) e) tr) /\
  (forall t e, In t (running s) -> j_what (t_job t) = WaitFor e -> In (Await (j_id (t_job t)) e) tr) /\
  (forall t e, In t (running s) -> j_what (t_job t) = WaitFor e -> ready t = true -> was_set (j_id (t_job t)) e) /\
  (forall i, In (i, WasSet) (outcomes s) -> exists e, was_set i e).
Proof.
  induction tr as [|x tr IH] using rev_ind; intros s E was_set.
  - cbn in E. inversion E; subst. cbn. repeat split; intros; contradiction.
  - rewrite run_app in E. destruct (run (fresh k fs h) tr) as [s0|] eqn:E0; [|discriminate]. cbn [AFileModel.run] in E.
    destruct (step s0 x) as [s1|] eqn:S; [|discriminate]. inversion E; subst s1; clear E. specialize (IH s0 eq_refl). cbv zeta in IH. destruct IH as (A & B & C & D).
    assert (OLD : forall i e, (exists a b s1, tr = a ++ b /\ In (Await i e) a /\ run (fresh k fs h) a = Some s1 /\ flag s1 e = true) -> was_set i e).
    { intros i e (a & b & s1 & Q & W). exists a, (b ++ [x]), s1. split; [now rewrite Q, app_assoc|exact W]. }
    assert (NEW : forall i e, In (Await i e) (tr ++ [x]) -> flag s e = true -> was_set i e).
    { intros i e J W. exists (tr ++ [x]), [], s. split; [now rewrite app_nil_r|]. split; auto. split; auto. rewrite run_app, E0. cbn [AFileModel.run]. now rewrite S. }
    assert (D' : forall i, In (i, WasSet) (outcomes s0) -> exists e, was_set i e) by (intros i J; destruct (D i J) as (e & W); eauto).
    assert (A' : forall j e, In j (queue s0) -> j_what j = WaitFor e -> In (Await (j_id j) e) (tr ++ [x])) by (intros; apply in_or_app; auto).
    assert (B' : forall t e, In t (running s0) -> j_what (t_job t) = WaitFor e -> In (Await (j_id (t_job t)) e) (tr ++ [x])) by (intros; apply in_or_app; auto).
    assert (C' : forall t e, In t (running s0) -> j_what (t_job t) = WaitFor e -> ready t = true -> was_set (j_id (t_job t)) e) by (intros; apply OLD; eauto).
    clearbody was_set. clear OLD A B C D.
    destruct x as [i w o|w o|i e|e|e| |i|i|w]; cbn [AFileModel.step] in S.
    + destruct (unused s0 i); [|discriminate]. inversion S; subst s. unfold call. destruct (handle s0 w); cbn [set_queue answer queue running outcomes].
      * repeat split; auto. intros j e J. apply in_app_or in J. destruct J as [J|[<-|[]]]; auto. discriminate.
      * repeat split; auto. intros j J. apply in_app_or in J. destruct J as [J|[J|[]]]; [auto|discriminate].
    + inversion S; subst s. unfold direct. destruct (handle s0 w); cbn [set_files queue running outcomes]; repeat split; auto.
    + destruct (unused s0 i); [|discriminate]. inversion S; subst s. cbn [set_queue queue running outcomes]. repeat split; auto.
      intros j e' J. apply in_app_or in J. destruct J as [J|[<-|[]]]; auto. cbn. intros Q. inversion Q; subst. apply in_or_app. right. now left.
    + inversion S; subst s. cbn [set_flag queue running outcomes flag] in *. repeat split; auto.
      * intros t e' J. apply in_map_iff in J. destruct J as (y & <- & J). destruct (is_wait e (t_job y)); cbn; auto.
      * intros t e' J. apply in_map_iff in J. destruct J as (y & <- & J). destruct (is_wait e (t_job y)) eqn:W; cbn; auto. intros Q _.
        unfold is_wait in W. rewrite Q in W. apply Nat.eqb_eq in W. subst e'. apply NEW; [auto|]. apply upd_same.
    + inversion S; subst s. cbn [set_flag queue running outcomes]. repeat split; auto.
    + destruct (queue s0) as [|j q] eqn:Q; [discriminate|]. destruct (_ <? _); [|discriminate]. inversion S; subst s. cbn [queue running outcomes flag] in *. repeat split; auto.
      * intros j' e J. apply A'. now right.
      * intros t e J. apply in_app_or in J. destruct J as [J|[<-|[]]]; auto. cbn. intros W. apply A'; auto. now left.
      * intros t e J. apply in_app_or in J. destruct J as [J|[<-|[]]]; auto. cbn. intros W RD. rewrite W in RD. apply NEW; [|exact RD]. apply A'; auto. now left.
    + destruct (take i (running s0)) as [[t r]|] eqn:T; [|discriminate]. destruct (ready t) eqn:RT; [|discriminate]. inversion S; subst s; clear S.
      apply take_spec in T. destruct T as (Ti & a & b & Ra & -> & _).
      assert (IT : In t (running s0)) by (rewrite Ra; apply in_or_app; right; now left).
      assert (SUB : forall u, In u (a ++ b) -> In u (running s0)) by (intros u; rewrite Ra, !in_app_iff; cbn; tauto).
      assert (Q1 : let s := finish exec s0 t (a ++ b) in queue s = queue s0 /\ running s = a ++ b /\
        forall i', In (i', WasSet) (outcomes s) -> In (i', WasSet) (outcomes s0) \/ (i' = j_id (t_job t) /\ exists e, j_what (t_job t) = WaitFor e)).
      { unfold finish. destruct (j_what (t_job t)) as [f o|e]; [destruct (exec (files s0 f) o)|]; destruct (left t); cbn [answer queue running outcomes]; repeat split; auto;
          intros i' J; apply in_app_or in J; destruct J as [J|[J|[]]]; auto; inversion J; eauto. }
      destruct Q1 as (Q1 & Q2 & Q3). rewrite Q1, Q2. repeat split; auto.
      intros i' J. destruct (Q3 i' J) as [J'|(-> & e & W)]; auto. exists e. apply C'; auto.
    + destruct (existsb _ _).
      * inversion S; subst s. cbn [answer set_queue queue running outcomes]. repeat split; auto.
        -- intros j e J. apply filter_In in J. destruct J. auto.
        -- intros j J. apply in_app_or in J. destruct J as [J|[J|[]]]; [auto|discriminate].
      * destruct (take i (running s0)) as [[t r]|]; [|discriminate]. destruct (left t); [discriminate|]. inversion S; subst s. cbn [answer queue running outcomes]. repeat split; auto.
        -- intros t' e J. apply in_map_iff in J. destruct J as (y & <- & J). destruct (with_id i y); cbn; auto.
        -- intros t' e J. apply in_map_iff in J. destruct J as (y & <- & J). destruct (with_id i y); cbn; auto.
        -- intros j J. apply in_app_or in J. destruct J as [J|[J|[]]]; [auto|discriminate].
    + inversion S; subst s. cbn [queue running outcomes]. repeat split; auto.
Qed.
(** [wait] returns only if the event was set at some moment since it was called. *)
Theorem C74_wait_returns_after_set : forall k fs h tr s i, run (fresh k fs h) tr = Some s -> In (i, WasSet) (outcomes s) ->
  exists e a b s1, tr = a ++ b /\ In (Await i e) a /\ run (fresh k fs h) a = Some s1 /\ flag s1 e = true.
Proof.
  intros k fs h tr s i E J. destruct (wait_aux k fs h tr s E) as (_ & _ & _ & D). destruct (D i J) as (e & W). exists e. exact W.
Qed.

(** [set] releases every wait that a thread has begun, even if the event is cleared right after:
    from then on the wait has returned or can return. *)
Definition releasable (i : nat) (s : st) : Prop := exists u, In u (running s) /\ j_id (t_job u) = i /\ ready u = true.
Lemma releasable_step i s x s' : releasable i s -> step s x = Some s' -> x <> Finish i -> releasable i s'.
Proof.
  intros (u & IU & Ui & RU) S N. destruct x as [k w o|w o|k e|e|e| |k|k|w]; cbn [AFileModel.step] in S.
  - destruct (unused s k); [|discriminate]. inversion S; subst. unfold call. destruct (handle s w); exists u; cbn; auto.
  - inversion S; subst. unfold direct. destruct (handle s w); exists u; cbn; auto.
  - destruct (unused s k); [|discriminate]. inversion S; subst. exists u; cbn; auto.
  - inversion S; subst. cbn. exists (if is_wait e (t_job u) then mkTh (t_job u) true (left u) else u). split; [|now destruct (is_wait e (t_job u))].
    apply in_map_iff. exists u. auto.
  - inversion S; subst. exists u; cbn; auto.
  - destruct (queue s); [discriminate|]. destruct (_ <? _); [|discriminate]. inversion S; subst. exists u. cbn. split; [apply in_or_app; auto|auto].
  - destruct (take k (running s)) as [[t r]|] eqn:T; [|discriminate]. destruct (ready t); [|discriminate]. inversion S; subst s'; clear S.
    apply take_spec in T. destruct T as (Ti & a & b & Ra & -> & _). exists u. split; [|auto].
    assert (IU' : In u (a ++ b)).
    { rewrite Ra in IU. rewrite in_app_iff in *. destruct IU as [IU|[IU|IU]]; auto. subst u. congruence. }
    unfold finish. destruct (j_what (t_job t)) as [f o|e]; [destruct (exec (files s f) o)|]; destruct (left t); exact IU'.
  - destruct (existsb _ _); [inversion S; subst; exists u; cbn; auto|].
    destruct (take k (running s)) as [[t r]|]; [|discriminate]. destruct (left t); [discriminate|]. inversion S; subst. cbn.
    exists (if with_id k u then mkTh (t_job u) (ready u) true else u). split; [|now destruct (with_id k u)]. apply in_map_iff. exists u. auto.
  - inversion S; subst. exists u; cbn; auto.
Qed.
Theorem C74_set_releases : forall k fs h tr s t e tr' s', run (fresh k fs h) tr = Some s -> In t (running s) -> j_what (t_job t) = WaitFor e ->
  run s (SetE e :: tr') = Some s' ->
  In (Finish (j_id (t_job t))) tr' \/ exists s'', step s' (Finish (j_id (t_job t))) = Some s''.
Proof.
  intros k fs h tr s t e tr' s' E IT W E'. destruct (inv_run exec _ _ _ _ _ (inv_fresh k fs h) E) as (c & I). set (i := j_id (t_job t)) in *.
  assert (I' : exists h' c', Inv h' c' s').
  { destruct (inv_run exec _ _ _ _ _ I E') as (c' & I'). eauto. }
  cbn [AFileModel.run AFileModel.step] in E'. match type of E' with AFileModel.run _ ?x _ = _ => set (s1 := x) in * end.
  assert (G1 : releasable i s1).
  { exists (mkTh (t_job t) true (left t)). split; [|auto]. subst s1. cbn. apply in_map_iff. exists t. unfold is_wait. rewrite W, Nat.eqb_refl. auto. }
  clearbody s1. destruct I' as (h' & c' & I').
  assert (Z : In (Finish i) tr' \/ releasable i s').
  { clear -G1 E'. revert s1 G1 E'. induction tr' as [|x tr IH]; intros s1 G1 E'; cbn [AFileModel.run] in E'; [inversion E'; subst; auto|].
    destruct (step s1 x) as [s2|] eqn:S; [|discriminate].
    assert (DEC : x = Finish i \/ x <> Finish i) by (destruct x; try (right; discriminate); destruct (Nat.eq_dec i0 i) as [->|]; [auto|right; congruence]).
    destruct DEC as [->|N]; [left; now left|]. destruct (IH s2) as [J|J]; auto; [now apply (releasable_step i s1 x)|left; now right]. }
  destruct Z as [J|(u & IU & Ui & RU)]; auto. right. rewrite <- Ui. now apply (can_finish h' c').
Qed.
(** A wait that no thread has begun yet misses a [set] that is followed by [clear]. *)
Theorem C74_set_then_clear_refuted : forall k fs h, 1 <= k -> exists s,
  run (fresh k fs h) [Await 0 0; SetE 0; ClearE 0; Start] = Some s /\
  forall tr s', run s tr = Some s' -> (forall e, ~ In (SetE e) tr) -> ~ In (Finish 0) tr.
Proof.
  intros k fs h K. destruct k as [|k]; [lia|]. eexists. split; [reflexivity|]. intros tr s'.
  match goal with |- run ?x _ = _ -> _ => set (s := x) end.
  assert (P : exists t r, running s = t :: r /\ j_id (t_job t) = 0 /\ ready t = false) by (subst s; cbn; eauto 6).
  clearbody s. intros E NS. revert s P E. induction tr as [|x tr IH]; intros s (t & r & RS & Ti & RT) E J; [destruct J|].
  cbn [AFileModel.run] in E. destruct (step s x) as [s1|] eqn:S; [|discriminate].
  assert (G : x <> Finish 0 /\ exists t r, running s1 = t :: r /\ j_id (t_job t) = 0 /\ ready t = false).
  { destruct x as [i w o|w o|i e|e|e| |i|i|w]; cbn [AFileModel.step] in S.
    - split; [discriminate|]. destruct (unused s i); [|discriminate]. inversion S; subst. unfold call. destruct (handle s w); cbn; eauto.
    - split; [discriminate|]. inversion S; subst. unfold direct. destruct (handle s w); cbn; eauto.
    - split; [discriminate|]. destruct (unused s i); [|discriminate]. inversion S; subst. cbn; eauto.
    - elim (NS e). now left.
    - split; [discriminate|]. inversion S; subst. cbn; eauto.
    - split; [discriminate|]. destruct (queue s); [discriminate|]. destruct (_ <? _); [|discriminate]. inversion S; subst. cbn [running]. rewrite RS. cbn. eauto.
    - destruct (Nat.eq_dec i 0) as [->|N].
      + rewrite RS in S. cbn [take] in S. unfold with_id in S. rewrite Ti in S. cbn in S. rewrite RT in S. discriminate.
      + split; [congruence|]. rewrite RS in S. cbn [take] in S. unfold with_id in S. rewrite Ti in S. replace (0 =? i) with false in S by (symmetry; apply Nat.eqb_neq; congruence).
        destruct (take i r) as [[u r']|]; [|discriminate]. destruct (ready u); [|discriminate]. inversion S; subst s1. exists t, r'.
        unfold finish. destruct (j_what (t_job u)) as [f o|e]; [destruct (exec (files s f) o)|]; destruct (left u); cbn; auto.
    - split; [discriminate|]. destruct (existsb _ _); [inversion S; subst; cbn; eauto|].
      destruct (take i (running s)) as [[u r']|]; [|discriminate]. destruct (left u); [discriminate|]. inversion S; subst. cbn. rewrite RS. cbn.
      eexists. eexists. split; [reflexivity|]. destruct (with_id i t); cbn; auto.
    - split; [discriminate|]. inversion S; subst. cbn; eauto. }
  destruct G as (N & P). destruct J as [J|J]; [congruence|].
  apply (IH (fun e Q => NS e (or_intror Q)) s1 P E J).
Qed.
End Props.

(** ** Lines *)
(** The lines of a text: together they are the text, none is empty, a newline ends each of them
    but possibly the last, and occurs nowhere else. *)
Inductive lines : list nat -> list (list nat) -> Prop :=
  | no_lines : lines [] []
  | last_line l : l <> [] -> ~ In newline l -> lines l [l]
  | a_line l t ls : ~ In newline l -> lines t ls -> lines (l ++ newline :: t) ((l ++ [newline]) :: ls).

Lemma line_of_spec l : (exists a b, l = a ++ newline :: b /\ ~ In newline a /\ line_of l = a ++ [newline]) \/ (~ In newline l /\ line_of l = l).
Proof.
  induction l as [|c l IH]; [right; auto|]. cbn [line_of]. destruct (Nat.eqb_spec c newline) as [->|N].
  - left. exists [], l. auto.
  - destruct IH as [(a & b & -> & NA & ->)|(NA & ->)].
    + left. exists (c :: a), b. repeat split; auto. intros [H|H]; auto.
    + right. split; auto. intros [H|H]; auto.
Qed.
Lemma skipn_app_len {A} (p : nat) (a b : list A) (l : list A) : skipn p l = a ++ b -> skipn (p + length a) l = b.
Proof. revert l. induction p as [|p IH]; intros l H; cbn [skipn plus] in *.
  - subst l. rewrite skipn_app, skipn_all, Nat.sub_diag. reflexivity.
  - destruct l as [|x l]; [|now apply IH]. symmetry in H. apply app_eq_nil in H. destruct H as [-> ->]. reflexivity.
Qed.

(** [async for] over a file yields the lines from the current position to the end, and ends. *)
Theorem C74_lines : forall f n, length (data f) < n ->
  let '(f', ls, ended) := collect n f in
  ended = true /\ lines (skipn (pos f) (data f)) ls /\ data f' = data f /\ skipn (pos f') (data f') = [].
Proof.
  intros f n L. assert (L' : length (skipn (pos f) (data f)) < n) by (rewrite skipn_length; lia). clear L. revert f L'.
  induction n as [|n IH]; intros f L; [lia|]. cbn [collect]. unfold anext, bexec.
  remember (skipn (pos f) (data f)) as r eqn:Er. destruct (line_of_spec r) as [(a & b & Q & NA & LO)|(NA & LO)]; rewrite LO.
  - destruct (a ++ [newline]) as [|y z] eqn:AZ; [destruct a; discriminate|]. rewrite <- AZ.
    set (f1 := mkB (data f) (pos f + length (a ++ [newline]))).
    assert (S1 : skipn (pos f1) (data f1) = b).
    { subst f1. cbn. apply skipn_app_len. rewrite <- Er, Q, <- app_assoc. reflexivity. }
    specialize (IH f1). rewrite S1 in IH. destruct (collect n f1) as [[f' ls] ended].
    destruct IH as (E & LN & D & Z). { rewrite Q, app_length in L. cbn in L. lia. }
    split; [exact E|]. split; [rewrite Q; now apply a_line|]. split; [rewrite D; reflexivity|exact Z].
  - destruct r as [|y z] eqn:R.
    + split; [reflexivity|]. split; [constructor|]. split; [reflexivity|]. cbn. now rewrite Nat.add_0_r.
    + set (f1 := mkB (data f) (pos f + length (y :: z))).
      assert (S1 : skipn (pos f1) (data f1) = []) by (subst f1; cbn [pos data]; apply skipn_app_len; rewrite app_nil_r; auto).
      specialize (IH f1). rewrite S1 in IH. destruct (collect n f1) as [[f' ls] ended].
      destruct IH as (E & LN & D & Z). { cbn in L. cbn. lia. }
      inversion LN; subst; [|congruence|destruct l; discriminate].
      split; [reflexivity|]. split; [apply last_line; [discriminate|exact NA]|]. split; [rewrite D; reflexivity|exact Z].
Qed.
(** Whatever tasks read from one file, at the same time, by [readline] and [read]: put together in
    the order in which they took effect, what they got is the content from the initial position on -
    nothing is read twice or left out (what a cancelled caller read is lost to the others too). *)
Fixpoint pieces (f : bfile) (l : list bop) : list (list nat) :=
  match l with [] => [] | o :: r => snd (bexec f o) :: pieces (fst (bexec f o)) r end.
Lemma piece f o : exists b, skipn (pos f) (data f) = snd (bexec f o) ++ b.
Proof.
  cbn. destruct o as [|n|]; [|exists (skipn n (skipn (pos f) (data f))); symmetry; apply firstn_skipn|now exists (skipn (pos f) (data f))].
  destruct (line_of_spec (skipn (pos f) (data f))) as [(a & b & Q & _ & ->)|(_ & ->)]; [exists b; rewrite Q, <- app_assoc; reflexivity|exists []; now rewrite app_nil_r].
Qed.
Lemma pieces_ok l : forall f, length (pieces f l) = length l /\ data (sync bexec f l) = data f /\ pos (sync bexec f l) = pos f + length (concat (pieces f l)) /\ exists b, skipn (pos f) (data f) = concat (pieces f l) ++ b.
Proof.
  induction l as [|o l IH]; intros f; [cbn; repeat split; auto; eauto|]. destruct (IH (fst (bexec f o))) as (A & B & C & b & D).
  destruct (piece f o) as (b' & P). cbn [pieces sync length concat]. rewrite A, B, C, app_length. split; [reflexivity|]. split; [reflexivity|].
  split; [cbn; lia|]. exists b. rewrite P, <- app_assoc. f_equal. rewrite <- D. cbn [bexec fst data pos]. symmetry. apply skipn_app_len. exact P.
Qed.
Lemma pieces_at l o r : forall f, nth_error (pieces f (l ++ o :: r)) (length l) = Some (snd (bexec (sync bexec f l) o)).
Proof. induction l as [|x l IH]; intros f; cbn [app pieces sync length nth_error]; auto. Qed.
Lemma on_app {Op} f (a b : list (nat * option nat * Op)) : on f (a ++ b) = on f a ++ on f b.
Proof. induction a as [|[[g i] o] a IH]; cbn; auto. destruct (g =? f); cbn; now rewrite IH. Qed.
Theorem C74_shared_reading : forall k fs h tr s, run bexec (fresh k fs h) tr = Some s ->
  let done f := on f (history h nothing tr) in
  exists got : nat -> list (list nat),
    (forall f, length (got f) = length (done f) /\ data (files s f) = data (fs f) /\ pos (files s f) = pos (fs f) + length (concat (got f)) /\
    exists rest, skipn (pos (fs f)) (data (fs f)) = concat (got f) ++ rest) /\
    (forall i v, In (i, Value v) (outcomes s) -> exists f n o, nth_error (done f) n = Some (Some i, o) /\ nth_error (got f) n = Some v).
Proof.
  intros k fs h tr s E done. destruct (C74_one_after_the_other bexec k fs h tr s E) as (A & B & _).
  exists (fun f => pieces (fs f) (map snd (done f))). split.
  - intros f. destruct (pieces_ok (map snd (done f)) (fs f)) as (P1 & P2 & P3 & P4). rewrite map_length in P1. rewrite A. auto.
  - intros i v J. destruct (B i v J) as (f & o & pre & post & H & V). exists f, (length (on f pre)), o. subst done. cbv beta. rewrite H, on_app. cbn [on]. rewrite Nat.eqb_refl. split.
    + rewrite nth_error_app2, Nat.sub_diag by auto. reflexivity.
    + rewrite map_app. cbn [map snd]. rewrite <- (map_length snd (on f pre)). rewrite pieces_at. now rewrite V.
Qed.

Module Demo.
(** Two tasks read the lines of one file of four characters; a third waits for an event. *)
Definition text := [7; 10; 8; 9].
Definition fs := fun _ : nat => mkB text 0.
Definition h := fun w : nat => if w =? 0 then Some 5 else None.
Definition tr : list (@event bop) :=
  [Call 1 0 Readline; Call 2 0 Readline; Await 3 4; Start; Start; Finish 2; Start; Finish 1; SetE 4; ClearE 4; Finish 3; Call 6 9 Tell; Call 7 0 Readline; Start; Cancel 7; Finish 7].
Example ex_run : option_map outcomes (run bexec (fresh 2 fs h) tr) =
  Some [(2, Value [7; 10]); (1, Value [8; 9]); (3, WasSet); (6, AttributeError); (7, CancelledError)].
Proof. reflexivity. Qed.
Example ex_history : on 5 (history h nothing tr) = [(Some 2, Readline); (Some 1, Readline); (Some 7, Readline)].
Proof. reflexivity. Qed.
Example ex_finish : option_map (fun s => pos (files s 5)) (run bexec (fresh 2 fs h) tr) = Some 4.
Proof. reflexivity. Qed.
(** One task, each call awaited in turn. *)
Definition turn : list (@event bop) :=
  [Call 1 0 (Read 1); Start; Await 8 8; Start; Finish 1; Call 2 0 Readline; SetE 8; Finish 8; Start; Finish 2; Detach 0; Call 3 0 Tell].
Example ex_turns : turns 5 h None turn.
Proof. cbn. repeat split; auto; discriminate. Qed.
Example ex_turn_run : option_map outcomes (run bexec (fresh 2 fs h) turn) = Some [(1, Value [7]); (8, WasSet); (2, Value [10]); (3, AttributeError)].
Proof. reflexivity. Qed.
(** [C74_cancelled_in_time]: cancelled before a thread took it *)
Example ex_cancel : option_map (fun s => (outcomes s, pos (files s 5))) (run bexec (fresh 2 fs h) [Call 1 0 Readline; Cancel 1]) = Some ([(1, CancelledError)], 0).
Proof. reflexivity. Qed.
Example ex_no_finish : run bexec (fresh 2 fs h) [Call 1 0 Readline; Cancel 1; Finish 1] = None.
Proof. reflexivity. Qed.
(** [C74_set_releases]: a wait that a thread has begun survives [clear]. *)
Example ex_release : option_map outcomes (run bexec (fresh 1 fs h) [Await 1 0; Start; SetE 0; ClearE 0; Finish 1]) = Some [(1, WasSet)].
Proof. reflexivity. Qed.
Example ex_blocked : run bexec (fresh 1 fs h) [Await 1 0; Start; Call 2 0 Readline; Start] = None.
Proof. reflexivity. Qed.
Example ex_lines : collect 9 (mkB text 0) = (mkB text 4, [[7; 10]; [8; 9]], true).
Proof. reflexivity. Qed.
Example ex_lines_spec : lines text [[7; 10]; [8; 9]].
Proof. apply (a_line [7] [8; 9]); [intros [H|[]]; discriminate|]. apply last_line; [discriminate|]. intros [H|[H|[]]]; discriminate. Qed.
End Demo.

Print Assumptions C74_one_after_the_other.
Print Assumptions C74_awaited_in_turn.
Print Assumptions C74_one_thread_in_order.
Print Assumptions C74_two_threads_refuted.
Print Assumptions C74_after_exit.
Print Assumptions C74_cancelled_in_time.
Print Assumptions C74_cancelled_too_late_refuted.
Print Assumptions C74_progress.
Print Assumptions C74_waits_hold_up_files_refuted.
Print Assumptions C74_wait_returns_after_set.
Print Assumptions C74_set_releases.
Print Assumptions C74_set_then_clear_refuted.
Print Assumptions C74_lines.
Print Assumptions C74_shared_reading.
