(** * AFileProps: C74, asynchronous files and events behave like the synchronous ones

    Reading guide.  Tasks call operations of wrapped files and wait for events; an executor with
    [k] threads carries them out.  A run is a list of events (calls, threads that take and finish
    operations, cancellations, [set] and [clear] of events), in any order the model permits;
    [run (fresh k fs h) tr = Some s]: it starts with files [fs] and wrappers [h] and leads to [s].
    Operations and their effects ([exec]) are arbitrary.

    Specification: AFileSpec.v ([sync], [history], [asked], [turns], [issued], [finished]), in
    terms of the events only. *)
From Coq Require Import List Bool Arith Lia.
From Verif Require Import AFileModel AFileSpec AFileProofs.
Import ListNotations.

Section Props.
Context {F Op R : Type} (exec : F -> Op -> F * R).
Notation st := (@st F Op R).
Notation event := (@event Op).
Notation step := (@step F Op R exec).
Notation run := (@run F Op R exec).
Notation sync := (@sync F Op R exec).

(** Whatever tasks and threads do, each file is as if the operations on it had been executed one
    after the other, in the order in which they took effect; each result is the one of that
    operation at its place in this sequence; every call gets one answer; an operation that took
    effect is answered, unless its caller was cancelled. *)
Theorem C74_one_after_the_other : forall k fs h tr s, run (fresh k fs h) tr = Some s ->
  let H := history h nothing tr in
  (forall f, files s f = sync (fs f) (map snd (on f H))) /\
  (forall i v, In (i, Value v) (outcomes s) ->
     exists f o pre post, H = pre ++ (f, Some i, o) :: post /\ v = snd (exec (sync (fs f) (map snd (on f pre))) o)) /\
  (forall f i o, In (f, Some i, o) H -> (exists v, In (i, Value v) (outcomes s)) \/ In (i, CancelledError) (outcomes s)) /\
  NoDup (map fst (outcomes s)).
Proof.
  intros k fs h tr s E H. destruct (linear exec h nothing _ tr s (inv_fresh k fs h) E) as (A & (n & B & B') & C).
  split; [exact A|]. split; [intros i v I; cbn in B; rewrite B in I; now apply B'|]. split; [exact C|].
  destruct (inv_run exec _ _ _ _ _ (inv_fresh k fs h) E) as (c & I). apply (i_once _ _ _ I).
Qed.

(** ** One task, one operation at a time *)
Definition jobs (s : st) : list (@job Op) := queue s ++ map (fun t => t_job t) (running s).
Definition kept (s : st) (x : event) (j : @job Op) : Prop :=
  match x with
  | Call i w o => (exists f, handle s w = Some f /\ j = mkJob i (OnFile f o)) \/ In j (jobs s)
  | Await i e => j = mkJob i (WaitFor e) \/ In j (jobs s)
  | Finish i => In j (jobs s) /\ j_id j <> i
  | _ => In j (jobs s)
  end.
Lemma jobs_step h calls s x s' : Inv h calls s -> step s x = Some s' ->
  (forall j, In j (jobs s') -> kept s x j) /\ (forall j, kept s x j -> (forall i, x = Cancel i -> j_id j <> i) -> In j (jobs s')).
Proof.
  intros I E. destruct x as [i w o|w o|i e|e|e| |i|i|w]; cbn [AFileModel.step kept] in *.
  - destruct (unused s i); [|discriminate]. inversion E; subst s'; clear E. unfold call. destruct (handle s w) as [f|]; unfold jobs; cbn [set_queue answer queue running].
    + split; intros j; rewrite !in_app_iff; cbn; [intros [[J|[<-|[]]]|J]; eauto|]. intros [(g & Q & ->)|[J|J]] _; auto. inversion Q; subst. auto.
    + split; intros j; auto. intros [(g & Q & _)|J]; [discriminate|auto].
  - inversion E; subst s'; clear E. unfold direct. destruct (handle s w); unfold jobs; cbn; split; auto.
  - destruct (unused s i); [|discriminate]. inversion E; subst s'; clear E. unfold jobs; cbn [set_queue queue running].
    split; intros j; rewrite !in_app_iff; cbn; [intros [[J|[<-|[]]]|J]; eauto|]. intros [->|[J|J]] _; auto.
  - inversion E; subst s'; clear E. unfold jobs; cbn [set_flag queue running]. rewrite map_map.
    rewrite (map_ext _ (fun t => t_job t)); [split; auto|]. intros t. now destruct (is_wait e (t_job t)).
  - inversion E; subst s'; clear E. unfold jobs; cbn [set_flag queue running]. split; auto.
  - destruct (queue s) as [|j0 q] eqn:Q; [discriminate|]. destruct (_ <? _); [|discriminate]. inversion E; subst s'; clear E.
    unfold jobs; cbn [queue running]. rewrite Q, map_app. cbn [map begin t_job].
    split; intros j; rewrite !in_app_iff; cbn; rewrite ?in_app_iff; tauto.
  - destruct (take i (running s)) as [[t r]|] eqn:T; [|discriminate]. destruct (ready t); [|discriminate]. inversion E; subst s'; clear E.
    apply take_spec in T. destruct T as (Ti & a & b & Ra & -> & _).
    assert (J' : jobs (finish exec s t (a ++ b)) = queue s ++ map (fun t => t_job t) (a ++ b)).
    { unfold jobs, finish. destruct (j_what (t_job t)); [destruct (exec (files s f) o)|]; destruct (left t); reflexivity. }
    pose proof (i_nodup _ _ _ I) as ND. unfold qids, rids in ND. rewrite Ra in ND. rewrite map_app in ND. cbn [map] in ND. rewrite Ti, app_assoc in ND.
    apply NoDup_remove_2 in ND. rewrite <- app_assoc in ND.
    assert (NQ : forall j, In j (queue s ++ map (fun t => t_job t) (a ++ b)) -> j_id j <> i).
    { intros j J Q. apply ND. rewrite <- Q. rewrite !in_app_iff. rewrite in_app_iff in J. destruct J as [J|J]; [left; now apply in_map with (f := fun j => j_id j)|].
      rewrite map_app, in_app_iff in J. right. destruct J as [J|J]; apply in_map_iff in J; destruct J as (u & <- & J); [left|right]; now apply in_map with (f := fun t => j_id (t_job t)). }
    rewrite J'. split; intros j J.
    + split; [|now apply NQ]. unfold jobs. rewrite Ra, in_app_iff in *. rewrite map_app, in_app_iff in *. cbn. tauto.
    + intros _. destruct J as [J N]. unfold jobs in J. rewrite Ra, in_app_iff in *. rewrite map_app, in_app_iff in *. cbn in J.
      destruct J as [J|[J|[J|J]]]; auto. subst j. congruence.
  - destruct (existsb _ _).
    + inversion E; subst s'; clear E. unfold jobs; cbn [answer set_queue queue running]. split; intros j; rewrite !in_app_iff, filter_In.
      * tauto.
      * intros [J|J] N; auto. left. split; auto. apply negb_true_iff, Nat.eqb_neq. now apply N.
    + destruct (take i (running s)) as [[t r]|]; [|discriminate]. destruct (left t); [discriminate|]. inversion E; subst s'; clear E.
      unfold jobs; cbn [answer queue running]. rewrite map_map. rewrite (map_ext _ (fun t => t_job t)); [split; auto|]. intros u. now destruct (with_id i u).
  - inversion E; subst s'; clear E. unfold jobs; cbn. split; auto.
Qed.

Definition about (f : nat) (j : @job Op) : Prop := exists o, j_what j = OnFile f o.
Definition pending_op (calls : nat -> option (nat * Op)) (pend : option nat) : list (option nat * Op) :=
  match pend with Some i => match calls i with Some (_, o) => [(Some i, o)] | None => [] end | None => [] end.

Lemma agree_jobs h calls s j : Inv h calls s -> In j (jobs s) -> agrees calls j.
Proof.
  intros I J. unfold jobs in J. apply in_app_or in J. destruct J as [J|J]; [now apply (i_qj _ _ _ I)|].
  apply in_map_iff in J. destruct J as (t & <- & J). now apply (i_rj _ _ _ I).
Qed.

Lemma turns_ok f tr : forall h calls (s : st) pend s', Inv h calls s -> run s tr = Some s' -> turns f h pend tr ->
  (forall j, In j (jobs s) -> about f j -> pend = Some (j_id j)) ->
  (forall i, pend = Some i -> exists o, In (mkJob i (OnFile f o)) (jobs s)) ->
  exists tail, pending_op calls pend ++ asked f h tr = on f (history h calls tr) ++ tail /\ length tail <= 1 /\
    (tail <> [] -> exists j, In j (jobs s') /\ about f j).
Proof.
  induction tr as [|x tr IH]; intros h calls s pend s' I E T P1 P2.
  - cbn in E. inversion E; subst s'. cbn. rewrite app_nil_r. exists (pending_op calls pend). split; [reflexivity|]. split.
    + unfold pending_op. destruct pend as [i|]; cbn; [|lia]. destruct (calls i) as [[g o]|]; cbn; lia.
    + unfold pending_op. destruct pend as [i|]; [|congruence]. intros _. destruct (P2 i eq_refl) as (o & J). exists (mkJob i (OnFile f o)). split; auto. now exists o.
  - cbn [AFileModel.run] in E. destruct (step s x) as [s1|] eqn:S; [|discriminate]. pose proof (inv_step _ _ _ _ _ _ I S) as I1.
    destruct (jobs_step _ _ _ _ _ I S) as (K1 & K2). pose proof (i_handle _ _ _ I) as HH.
    assert (SAME : (forall j, In j (jobs s1) <-> In j (jobs s)) -> (forall j, In j (jobs s1) -> about f j -> pend = Some (j_id j)) /\
                    (forall i, pend = Some i -> exists o, In (mkJob i (OnFile f o)) (jobs s1))).
    { intros Q. split; [intros j J; apply P1; now apply Q|]. intros i Pi. destruct (P2 i Pi) as (o & J). exists o. now apply Q. }
    destruct x as [i w o|w o|i e|e|e| |i|i|w]; cbn [turns asked history handle_after calls_after kept] in *.
    + destruct (h w) as [g|] eqn:W.
      * assert (NEW : forall j, In j (jobs s1) <-> j = mkJob i (OnFile g o) \/ In j (jobs s)).
        { intros j. split; intros J; [|apply K2; [|discriminate]].
          - destruct (K1 j J) as [(g' & Q & ->)|J']; auto. rewrite HH, W in Q. inversion Q; auto.
          - destruct J as [->|J]; auto. left. exists g. rewrite HH. auto. }
        destruct (Nat.eqb_spec g f) as [->|N].
        -- destruct T as (-> & T). destruct (IH _ _ _ (Some i) s' I1 E T) as (tail & Q & L & X).
           ++ intros j J A. apply NEW in J. destruct J as [->|J]; [reflexivity|]. specialize (P1 j J A). discriminate.
           ++ intros k Q. inversion Q; subst k. exists o. apply NEW. now left.
           ++ exists tail. split; [|auto]. cbn [pending_op app] in *. rewrite upd_same in Q. exact Q.
        -- assert (C : forall k, pend = Some k -> upd calls i (Some (g, o)) k = calls k).
           { intros k Pk. destruct (P2 k Pk) as (o' & J). apply upd_other. intros ->.
             cbn [AFileModel.step] in S. destruct (unused s i) eqn:U; [|discriminate]. apply unused_spec in U. destruct U as (U1 & U2 & _).
             unfold jobs in J. apply in_app_or in J. destruct J as [J|J].
             - apply U1. apply in_map with (f := fun j => j_id j) in J. exact J.
             - apply U2. apply in_map_iff in J. destruct J as (t & Q & J). unfold rids. apply in_map_iff. exists t. rewrite Q. auto. }
           destruct (IH _ _ _ pend s' I1 E T) as (tail & Q & L & X).
           ++ intros j J A. apply NEW in J. destruct J as [->|J]; [|auto]. destruct A as (o' & A). cbn in A. inversion A; congruence.
           ++ intros k Pk. destruct (P2 k Pk) as (o' & J). exists o'. apply NEW. auto.
           ++ exists tail. split; [|auto]. rewrite <- Q. f_equal. unfold pending_op. destruct pend as [k|]; auto. now rewrite (C k eq_refl).
      * assert (SM : forall j, In j (jobs s1) <-> In j (jobs s)).
        { intros j; split; intros J; [destruct (K1 j J) as [(g & Q & _)|J']; auto; rewrite HH, W in Q; discriminate|apply K2; [auto|discriminate]]. }
        exact (IH _ _ s1 pend s' I1 E T (proj1 (SAME SM)) (proj2 (SAME SM))).
    + assert (SM : forall j, In j (jobs s1) <-> In j (jobs s)) by (intros j; split; intros J; [now apply K1|apply K2; [auto|discriminate]]).
      destruct (h w) as [g|] eqn:W.
      * destruct T as (N & T). destruct (IH _ _ s1 pend s' I1 E T (proj1 (SAME SM)) (proj2 (SAME SM))) as (tail & Q & L & X).
        exists tail. split; [|auto]. cbn [on]. destruct (Nat.eqb_spec g f) as [G|G]; [|exact Q]. rewrite (N G) in *. cbn [pending_op app] in *. now rewrite Q.
      * exact (IH _ _ s1 pend s' I1 E T (proj1 (SAME SM)) (proj2 (SAME SM))).
    + assert (SM : forall j, In j (jobs s1) <-> j = mkJob i (WaitFor e) \/ In j (jobs s)) by (intros j; split; intros J; [now apply K1|apply K2; [auto|discriminate]]).
      apply (IH _ _ s1 pend s' I1 E T).
      * intros j J A. apply SM in J. destruct J as [->|J]; auto. destruct A as (o & A). discriminate.
      * intros k Pk. destruct (P2 k Pk) as (o & J). exists o. apply SM. auto.
    + assert (SM : forall j, In j (jobs s1) <-> In j (jobs s)) by (intros j; split; intros J; [now apply K1|apply K2; [auto|discriminate]]).
      exact (IH _ _ s1 pend s' I1 E T (proj1 (SAME SM)) (proj2 (SAME SM))).
    + assert (SM : forall j, In j (jobs s1) <-> In j (jobs s)) by (intros j; split; intros J; [now apply K1|apply K2; [auto|discriminate]]).
      exact (IH _ _ s1 pend s' I1 E T (proj1 (SAME SM)) (proj2 (SAME SM))).
    + assert (SM : forall j, In j (jobs s1) <-> In j (jobs s)) by (intros j; split; intros J; [now apply K1|apply K2; [auto|discriminate]]).
      exact (IH _ _ s1 pend s' I1 E T (proj1 (SAME SM)) (proj2 (SAME SM))).
    + assert (SM : forall j, In j (jobs s1) <-> In j (jobs s) /\ j_id j <> i) by (intros j; split; intros J; [now apply K1|apply K2; [auto|discriminate]]).
      assert (JI : exists t, In t (running s) /\ j_id (t_job t) = i).
      { cbn [AFileModel.step] in S. destruct (take i (running s)) as [[t r]|] eqn:TK; [|discriminate]. apply take_spec in TK.
        destruct TK as (Ti & a & b & Ra & _ & _). exists t. split; auto. rewrite Ra. apply in_or_app. right. now left. }
      destruct JI as (t & IT & Ti). pose proof (i_rj _ _ _ I t IT) as AG. unfold agrees in AG. rewrite Ti in AG.
      assert (IJ : In (t_job t) (jobs s)) by (unfold jobs; apply in_or_app; right; now apply in_map with (f := fun t => t_job t)).
      destruct pend as [k|].
      * destruct (Nat.eqb_spec k i) as [->|N].
        -- destruct (P2 i eq_refl) as (o & J). pose proof (agree_jobs _ _ _ _ I J) as AJ. unfold agrees in AJ. cbn in AJ.
           destruct (IH _ _ s1 None s' I1 E T) as (tail & Q & L & X).
           ++ intros j J' A. apply SM in J'. destruct J' as [J' N]. specialize (P1 j J' A). inversion P1. congruence.
           ++ discriminate.
           ++ exists tail. split; [|auto]. rewrite AJ. cbn [on]. rewrite Nat.eqb_refl. cbn [pending_op app] in *. rewrite AJ. cbn [app]. now rewrite Q.
        -- destruct (IH _ _ s1 (Some k) s' I1 E T) as (tail & Q & L & X).
           ++ intros j J' A. apply SM in J'. apply P1; tauto.
           ++ intros z Z. inversion Z; subst z. destruct (P2 k eq_refl) as (o & J). exists o. apply SM. auto.
           ++ exists tail. split; [|auto]. destruct (j_what (t_job t)) as [g o|e] eqn:WH; rewrite AG; [|exact Q]. cbn [on].
              destruct (Nat.eqb_spec g f) as [->|]; [|exact Q]. exfalso. specialize (P1 (t_job t) IJ (ex_intro _ o WH)). inversion P1. congruence.
      * destruct (IH _ _ s1 None s' I1 E T) as (tail & Q & L & X).
        -- intros j J' A. apply SM in J'. apply P1; tauto.
        -- discriminate.
        -- exists tail. split; [|auto]. destruct (j_what (t_job t)) as [g o|e] eqn:WH; rewrite AG; [|exact Q]. cbn [on].
           destruct (Nat.eqb_spec g f) as [->|]; [|exact Q]. exfalso. specialize (P1 (t_job t) IJ (ex_intro _ o WH)). discriminate.
    + destruct T as (N & T). apply (IH _ _ s1 pend s' I1 E T).
      * intros j J. apply P1. now apply K1.
      * intros k Pk. destruct (P2 k Pk) as (o & J). exists o. apply K2; auto. intros i' Q. inversion Q; subst. cbn. congruence.
    + assert (SM : forall j, In j (jobs s1) <-> In j (jobs s)) by (intros j; split; intros J; [now apply K1|apply K2; [auto|discriminate]]).
      exact (IH _ _ s1 pend s' I1 E T (proj1 (SAME SM)) (proj2 (SAME SM))).
Qed.

(** If the operations on a file are called one at a time, each awaited before the next (as by one
    task), they take effect in the order of the calls - whatever other tasks do with other files
    and events, and whatever the number of threads: the file and the results are those of the
    synchronous program. *)
Theorem C74_awaited_in_turn : forall k fs h tr s f, run (fresh k fs h) tr = Some s -> turns f h None tr ->
  exists tail, asked f h tr = on f (history h nothing tr) ++ tail /\ length tail <= 1 /\
    (tail = [] -> files s f = sync (fs f) (map snd (asked f h tr))) /\
    (tail <> [] -> exists j, In j (jobs s) /\ about f j).
Proof.
  intros k fs h tr s f E T. destruct (turns_ok f tr h nothing _ None s (inv_fresh k fs h) E T) as (tail & Q & L & X).
  - intros j [].
  - discriminate.
  - exists tail. cbn [pending_op app] in Q. split; [exact Q|]. split; [exact L|]. split; [|exact X].
    intros ->. rewrite app_nil_r in Q. rewrite Q. now apply C74_one_after_the_other with (k := k).
Qed.

(** With an executor of one thread the operations take effect in the order of the calls, even if
    they are not awaited (and nobody is cancelled). *)
Lemma threads_step s x s' : step s x = Some s' -> threads s' = threads s.
Proof.
  intros S. destruct x as [i w o|w o|i e|e|e| |i|i|w]; cbn [AFileModel.step] in S.
  - destruct (unused s i); [|discriminate]. inversion S. unfold call. now destruct (handle s w).
  - inversion S. unfold direct. now destruct (handle s w).
  - destruct (unused s i); [|discriminate]. now inversion S.
  - now inversion S.
  - now inversion S.
  - destruct (queue s); [discriminate|]. destruct (_ <? _); [|discriminate]. now inversion S.
  - destruct (take i (running s)) as [[t r]|]; [|discriminate]. destruct (ready t); [|discriminate]. inversion S. unfold finish.
    destruct (j_what (t_job t)); [destruct (exec (files s f) o)|]; now destruct (left t).
  - destruct (existsb _ _); [now inversion S|]. destruct (take i (running s)) as [[t r]|]; [|discriminate]. destruct (left t); [discriminate|]. now inversion S.
  - now inversion S.
Qed.
Lemma threads_run tr : forall (s s' : st), run s tr = Some s' -> threads s' = threads s.
Proof.
  induction tr as [|x tr IH]; intros s s' E; cbn [AFileModel.run] in E; [now inversion E|].
  destruct (step s x) as [s1|] eqn:S; [|discriminate]. rewrite (IH _ _ E). now apply (threads_step s x).
Qed.

Lemma one_thread_aux tr : forall h calls (s : st) s', Inv h calls s -> threads s = 1 -> run s tr = Some s' -> (forall i, ~ In (Cancel i) tr) ->
  finished tr ++ rids s' ++ qids s' = rids s ++ qids s ++ issued h tr.
Proof.
  induction tr as [|x tr IH]; intros h calls s s' I ONE E NC.
  - cbn in E. inversion E; subst. cbn. now rewrite app_nil_r.
  - cbn [AFileModel.run] in E. destruct (step s x) as [s1|] eqn:S; [|discriminate]. pose proof (inv_step _ _ _ _ _ _ I S) as I1.
    assert (NC' : forall i, ~ In (Cancel i) tr) by (intros i J; apply (NC i); now right). pose proof (i_handle _ _ _ I) as HH.
    assert (ONE' : threads s1 = 1) by (rewrite (threads_step _ _ _ S); exact ONE).
    specialize (IH _ _ _ _ I1 ONE' E NC'). pose proof (i_room _ _ _ I) as RM. rewrite ONE in RM.
    destruct x as [i w o|w o|i e|e|e| |i|i|w]; cbn [AFileModel.step handle_after calls_after finished issued] in *.
    + destruct (unused s i); [|discriminate]. inversion S; subst s1; clear S. unfold call in IH. rewrite HH in IH. destruct (h w) as [f|].
      * rewrite IH. unfold qids, rids, set_queue. cbn [queue running]. rewrite map_app. cbn. now rewrite <- app_assoc.
      * rewrite IH. reflexivity.
    + inversion S; subst s1; clear S. rewrite IH. unfold direct. destruct (handle s w); reflexivity.
    + destruct (unused s i); [|discriminate]. inversion S; subst s1; clear S. rewrite IH. unfold qids, rids, set_queue. cbn [queue running]. rewrite map_app. cbn. now rewrite <- app_assoc.
    + inversion S; subst s1; clear S. rewrite IH. unfold qids, rids, set_flag. cbn [queue running]. rewrite map_map. f_equal. apply map_ext. intros t. now destruct (is_wait e (t_job t)).
    + inversion S; subst s1; clear S. rewrite IH. reflexivity.
    + destruct (queue s) as [|j q] eqn:Q; [discriminate|]. destruct (_ <? _); [|discriminate]. inversion S; subst s1; clear S.
      rewrite IH. unfold qids, rids. cbn [queue running]. rewrite Q, map_app. cbn. now rewrite <- app_assoc.
    + destruct (take i (running s)) as [[t r]|] eqn:T; [|discriminate]. destruct (ready t); [|discriminate]. inversion S; subst s1; clear S.
      apply take_spec in T. destruct T as (Ti & a & b & Ra & -> & _). rewrite Ra in RM. rewrite app_length in RM. cbn in RM.
      destruct a; [|cbn in RM; lia]. destruct b; [|cbn in RM; lia]. cbn [app] in *. rewrite IH. unfold rids at 2. rewrite Ra. cbn. rewrite Ti. f_equal.
      unfold finish. destruct (j_what (t_job t)); [destruct (exec (files s f) o)|]; destruct (left t); reflexivity.
    + elim (NC i). now left.
    + inversion S; subst s1; clear S. rewrite IH. reflexivity.
Qed.
Theorem C74_one_thread_in_order : forall fs h tr s, run (fresh 1 fs h) tr = Some s -> (forall i, ~ In (Cancel i) tr) ->
  exists rest, issued h tr = finished tr ++ rest /\ (queue s = [] -> running s = [] -> rest = []).
Proof.
  intros fs h tr s E NC. exists (rids s ++ qids s). pose proof (one_thread_aux tr h nothing _ s (inv_fresh 1 fs h) eq_refl E NC) as Q. split.
  - symmetry. exact Q.
  - unfold rids, qids. intros -> ->. reflexivity.
Qed.
(** With more threads they need not: of two operations called one after the other, without awaiting
    the first, the second can take effect first. *)
Theorem C74_two_threads_refuted : forall k fs h w f o1 o2, 2 <= k -> h w = Some f ->
  let tr := [Call 0 w o1; Call 1 w o2; Start; Start; Finish 1; Finish 0] in
  asked f h tr = [(Some 0, o1); (Some 1, o2)] /\
  exists s, run (fresh k fs h) tr = Some s /\ files s f = sync (fs f) [o2; o1].
Proof.
  intros k fs h w f o1 o2 K W tr. destruct k as [|[|k]]; [lia|lia|].
  assert (E : exists s, run (fresh (S (S k)) fs h) tr = Some s).
  { subst tr. cbn. unfold call. cbn. rewrite W. cbn. rewrite W. cbn. unfold finish. cbn. destruct (exec (fs f) o2) as [f1 v1]. cbn.
    rewrite upd_same. destruct (exec f1 o1) as [f2 v2]. cbn. eauto. }
  destruct E as (s & E). split; [cbn; rewrite W, Nat.eqb_refl; reflexivity|]. exists s. split; [exact E|].
  destruct (C74_one_after_the_other _ _ _ _ _ E) as (A & _). rewrite A. subst tr. cbn. rewrite W. cbn. rewrite Nat.eqb_refl. reflexivity.
Qed.

(** ** Leaving [async with] *)
(** After [__aexit__] the wrapper has no file: calls fail with AttributeError at once, and touch
    nothing. *)
Theorem C74_after_exit : forall k fs h tr1 tr2 w s i o s', run (fresh k fs h) (tr1 ++ Detach w :: tr2) = Some s ->
  step s (Call i w o) = Some s' ->
  outcomes s' = outcomes s ++ [(i, AttributeError)] /\ files s' = files s /\ queue s' = queue s.
Proof.
  intros k fs h tr1 tr2 w s i o s' E S. destruct (inv_run exec _ _ _ _ _ (inv_fresh k fs h) E) as (c & I).
  assert (HW : handle s w = None).
  { rewrite (i_handle _ _ _ I). unfold h_end. rewrite fold_left_app. cbn [fold_left handle_after].
    assert (G : forall (tr : list event) h, h w = None -> fold_left handle_after tr h w = None).
    { clear. induction tr as [|x tr IH]; intros h H; auto. cbn. apply IH. destruct x; cbn; auto. unfold upd. destruct (w =? w0); auto. }
    apply G. apply upd_same. }
  cbn [AFileModel.step] in S. destruct (unused s i); [|discriminate]. inversion S; subst. unfold call. rewrite HW. repeat split; reflexivity.
Qed.

(** ** Cancelled calls *)
Definition gone (i : nat) (s : st) : Prop := ~ In i (qids s) /\ ~ In i (rids s) /\ In i (oids s).
Lemma gone_step i s x s' : gone i s -> step s x = Some s' -> gone i s' /\ x <> Finish i.
Proof.
  unfold gone, qids, rids, oids. intros (A & B & C) S.
  assert (US : unused s i = false) by (destruct (unused s i) eqn:U; auto; apply unused_spec in U; tauto).
  destruct x as [k w o|w o|k e|e|e| |k|k|w]; cbn [AFileModel.step] in S.
  - destruct (unused s k) eqn:U; [|discriminate]. assert (k <> i) by congruence. inversion S; subst. unfold call. destruct (handle s w); cbn [set_queue answer queue running outcomes].
    + split; [|discriminate]. repeat split; auto. rewrite map_app, in_app_iff. cbn. intuition congruence.
    + split; [|discriminate]. repeat split; auto. rewrite map_app, in_app_iff. auto.
  - inversion S; subst. unfold direct. destruct (handle s w); cbn; split; auto; discriminate.
  - destruct (unused s k) eqn:U; [|discriminate]. assert (k <> i) by congruence. inversion S; subst. cbn [set_queue queue running outcomes].
    split; [|discriminate]. repeat split; auto. rewrite map_app, in_app_iff. cbn. intuition congruence.
  - inversion S; subst. cbn [set_flag queue running outcomes]. rewrite map_map. split; [|discriminate]. repeat split; auto.
    rewrite (map_ext _ (fun t => j_id (t_job t))); auto. intros t. now destruct (is_wait e (t_job t)).
  - inversion S; subst. cbn. split; auto. discriminate.
  - destruct (queue s) as [|j q] eqn:Q; [discriminate|]. destruct (_ <? _); [|discriminate]. inversion S; subst. cbn [queue running outcomes]. cbn in A.
    split; [|discriminate]. repeat split; auto. rewrite map_app, in_app_iff. cbn. tauto.
  - destruct (take k (running s)) as [[t r]|] eqn:T; [|discriminate]. destruct (ready t); [|discriminate]. inversion S; subst s'; clear S.
    apply take_spec in T. destruct T as (Ti & a & b & Ra & -> & _).
    assert (k <> i). { intros ->. apply B. rewrite Ra, map_app, in_app_iff. cbn. auto. }
    assert (B' : ~ In i (map (fun t => j_id (t_job t)) (a ++ b))). { rewrite Ra in B. rewrite map_app, in_app_iff in *. cbn in B. tauto. }
    split; [|congruence]. unfold finish. destruct (j_what (t_job t)); [destruct (exec (files s f) o)|]; destruct (left t); cbn [answer queue running outcomes]; repeat split; auto; rewrite (map_app fst), in_app_iff; auto.
  - destruct (existsb _ _).
    + inversion S; subst. cbn [answer set_queue queue running outcomes]. split; [|discriminate]. repeat split; auto; [|rewrite map_app, in_app_iff; auto].
      intros J. apply in_map_iff in J. destruct J as (y & Y & J). apply filter_In in J. apply A. rewrite <- Y. now apply in_map with (f := fun j => j_id j).
    + destruct (take k (running s)) as [[t r]|]; [|discriminate]. destruct (left t); [discriminate|]. inversion S; subst. cbn [answer queue running outcomes]. rewrite map_map.
      split; [|discriminate]. repeat split; auto; [|rewrite map_app, in_app_iff; auto]. rewrite (map_ext _ (fun t => j_id (t_job t))); auto. intros u. now destruct (with_id k u).
  - inversion S; subst. cbn. split; auto. discriminate.
Qed.
Lemma gone_run i tr : forall s s', gone i s -> run s tr = Some s' -> ~ In (Finish i) tr.
Proof.
  induction tr as [|x tr IH]; intros s s' G E J; [destruct J|]. cbn [AFileModel.run] in E. destruct (step s x) as [s1|] eqn:S; [|discriminate].
  destruct (gone_step i s x s1 G S) as (G1 & N). destruct J as [J|J]; [congruence|]. now apply (IH s1 s').
Qed.
(** A call that is cancelled before a thread has taken it is never carried out. *)
Theorem C74_cancelled_in_time : forall k fs h tr s j s1 tr' s', run (fresh k fs h) tr = Some s -> In j (queue s) ->
  step s (Cancel (j_id j)) = Some s1 -> run s1 tr' = Some s' ->
  In (j_id j, CancelledError) (outcomes s1) /\ ~ In (Finish (j_id j)) tr'.
Proof.
  intros k fs h tr s j s1 tr' s' E J S E'. destruct (inv_run exec _ _ _ _ _ (inv_fresh k fs h) E) as (c & I).
  assert (X : existsb (fun j' => j_id j' =? j_id j) (queue s) = true) by (apply existsb_exists; exists j; split; auto; apply Nat.eqb_refl).
  cbn [AFileModel.step] in S. rewrite X in S. inversion S; subst s1; clear S. split; [cbn; apply in_or_app; right; now left|].
  apply (gone_run _ _ _ _) with (2 := E'). unfold gone, qids, rids, oids. cbn [answer set_queue queue running outcomes]. repeat split.
  - intros Q. apply in_map_iff in Q. destruct Q as (y & Y & Q). apply filter_In in Q. destruct Q as [_ Q]. apply negb_true_iff, Nat.eqb_neq in Q. congruence.
  - intros Q. pose proof (i_nodup _ _ _ I) as ND. unfold qids, rids in ND. clear -J Q ND. induction (queue s) as [|y q IH]; [destruct J|].
    cbn in ND. inversion ND; subst. destruct J as [->|J]; auto. apply H1. apply in_or_app. auto.
  - rewrite map_app. apply in_or_app. right. now left.
Qed.
(** One that a thread has taken is carried out although its caller got CancelledError. *)
Theorem C74_cancelled_too_late_refuted : forall k fs h w f o, 1 <= k -> h w = Some f ->
  exists s, run (fresh k fs h) [Call 0 w o; Start; Cancel 0; Finish 0] = Some s /\
    outcomes s = [(0, CancelledError)] /\ files s f = fst (exec (fs f) o).
Proof.
  intros k fs h w f o K W. destruct k as [|k]; [lia|]. cbn. unfold call. cbn. rewrite W. cbn. unfold finish. cbn.
  destruct (exec (fs f) o) as [f' v]. cbn. eexists. split; [reflexivity|]. cbn. split; auto. apply upd_same.
Qed.
End Props.
