(** Invariants of LinearModel. *)
From Coq Require Import List Arith Bool Lia.
From Verif Require Import LinearSpec LinearModel.
Import ListNotations.

Definition ids {A B} (l : list (A * nat * B)) : list nat := map (fun e => snd (fst e)) l.
Definition cnt (id : nat) (l : list nat) : nat := count_occ Nat.eq_dec l id.
Lemma cnt_app : forall id l l', cnt id (l ++ l') = cnt id l + cnt id l'.
Proof. intros. apply count_occ_app. Qed.
Lemma ids_app : forall A B (l l' : list (A * nat * B)), ids (l ++ l') = ids l ++ ids l'.
Proof. intros. apply map_app. Qed.
Lemma cnt_cons : forall id x l, cnt id (x :: l) = (if Nat.eq_dec x id then 1 else 0) + cnt id l.
Proof. intros. unfold cnt. cbn [count_occ]. destruct (Nat.eq_dec x id); reflexivity. Qed.
Lemma cnt_none : forall id l, ~ In id l -> cnt id l = 0.
Proof. intros. now apply count_occ_not_In. Qed.
Lemma cnt_some : forall id l, In id l -> cnt id l >= 1.
Proof. intros id l I. apply (count_occ_In Nat.eq_dec) in I. unfold cnt. lia. Qed.
Lemma cnt_filter : forall id A B (f : A * nat * B -> bool) l, cnt id (ids (filter f l)) <= cnt id (ids l).
Proof.
  induction l as [|e l IH]; cbn [filter]; [lia|]. unfold ids in *. destruct (f e); cbn [map]; rewrite !cnt_cons; lia.
Qed.
Lemma NoDup_cnt : forall l, (forall id, cnt id l <= 1) -> NoDup l.
Proof. intros l H. apply (NoDup_count_occ Nat.eq_dec). exact H. Qed.
Lemma in_ids : forall A B (l : list (A * nat * B)) a id b, In (a, id, b) l -> In id (ids l).
Proof. intros. unfold ids. change id with (snd (fst (a, id, b))). now apply (in_map (fun e => snd (fst e))). Qed.

Lemma split_app : forall A (tr out t1 t2 : list A) x, tr ++ out = t1 ++ x :: t2 ->
  (exists t2', t2 = t2' ++ out /\ tr = t1 ++ x :: t2') \/ (exists o1, out = o1 ++ x :: t2 /\ t1 = tr ++ o1).
Proof.
  intros A tr. induction tr as [|y tr IH]; intros out t1 t2 x E.
  - right. exists t1. auto.
  - destruct t1 as [|z t1]; cbn [app] in E; injection E as -> E.
    + left. exists tr. now subst.
    + apply IH in E. destruct E as [(t2' & -> & ->)|(o1 & -> & ->)].
      * left. exists t2'. auto.
      * right. exists o1. auto.
Qed.

Section Proofs.
  Variables St M K R : Type.
  Variable start : M -> K.
  Variable resume : K -> St -> St * (K + R).
  Variable initial : St.
  Variables src dst : nat -> nat.
  Variable home : nat.
  Notation event := (event M R).
  Notation st := (st St M K R).
  Notation step := (step St M K R start resume initial src dst home).
  Notation run := (run St M K R start resume initial src dst home).
  Notation calls := (calls St M K R).
  Notation wire := (wire St M K R).
  Notation tasks := (tasks St M K R).
  Notation queue := (queue St M K R).
  Notation holder := (holder St M K R).
  Notation actor := (actor St M K R).
  Notation replies := (replies St M K R).
  Notation pending := (pending St M K R).
  Notation closed := (closed St M K R).
  Notation dead := (dead St M K R).
  Notation reply_on := (reply_on St M K R).
  Notation is_closed := (is_closed St M K R).
  Notation told := (told M R).
  Notation sent := (sent St M K R).
  Notation woken := (woken M R).
  Notation passed := (passed St M K R).
  Notation failed_events := (failed_events M R).
  Notation failed_replies := (failed_replies St M K R).

  Definition invoked (tr : list event) : list nat :=
    flat_map (fun e => match e with Invoke id _ => [id] | _ => [] end) tr.
  Definition begun (tr : list event) : list nat :=
    flat_map (fun e => match e with Begin id => [id] | _ => [] end) tr.
  Lemma invoked_app : forall t t', invoked (t ++ t') = invoked t ++ invoked t'.
  Proof. intros. apply flat_map_app. Qed.
  Lemma begun_app : forall t t', begun (t ++ t') = begun t ++ begun t'.
  Proof. intros. apply flat_map_app. Qed.
  Lemma In_invoked : forall tr id, In id (invoked tr) <-> exists m, In (Invoke id m) tr.
  Proof.
    intros. unfold invoked. rewrite in_flat_map. split.
    - intros ([] & X & Y); try contradiction. destruct Y as [<-|[]]. eauto.
    - intros [m X]. eexists. split; [exact X|]. now left.
  Qed.
  Lemma In_begun : forall tr id, In id (begun tr) <-> In (Begin id) tr.
  Proof.
    intros. unfold begun. rewrite in_flat_map. split.
    - intros ([] & X & Y); try contradiction. destruct Y as [<-|[]]. auto.
    - intros X. eexists. split; [exact X|]. now left.
  Qed.

  (** Events that only answer callers. *)
  Definition only_returns (out : list event) : Prop :=
    forall e, In e out -> match e with Return _ _ | Trouble | Aborted _ => True | _ => False end.
  Lemma told_returns : forall o id x, only_returns (told o id x).
  Proof. intros [] id x e; cbn; try tauto. intros [<-|[]]. exact I. Qed.
  Lemma woken_returns : forall o id x, only_returns (woken id o x).
  Proof. intros [] id x e; cbn; try tauto. intros [<-|[]]. exact I. Qed.
  Lemma failed_returns : forall l, only_returns (failed_events l).
  Proof. intros l e X. unfold LinearModel.failed_events in X. apply in_flat_map in X. destruct X as (y & _ & X). eapply woken_returns; eauto. Qed.
  Lemma cons_returns : forall e out, match e with Return _ _ | Trouble | Aborted _ => True | _ => False end ->
    only_returns out -> only_returns (e :: out).
  Proof. intros e out H O x [<-|X]; [exact H|exact (O x X)]. Qed.
  Lemma returns_nothing : forall out, only_returns out -> invoked out = [] /\ begun out = [].
  Proof.
    induction out as [|e out IH]; intros O; [auto|].
    destruct IH as [A B]; [intros x X; apply O; now right|].
    assert (P := O e (or_introl eq_refl)). unfold invoked, begun in *. cbn [flat_map]. rewrite A, B.
    destruct e; try contradiction; auto.
  Qed.
  Lemma returns_not_done : forall out id r, only_returns out -> ~ In (Done id r) out.
  Proof. intros out id r O X. exact (O _ X). Qed.
  Lemma returns_not_invoke : forall out id m, only_returns out -> ~ In (Invoke id m) out.
  Proof. intros out id r O X. exact (O _ X). Qed.

  (** Where answers come from. *)
  Lemma told_answer : forall o id x id' r, In (Return id' (Answer r)) (told o id x) -> id' = id /\ x = Some r.
  Proof.
    intros [] id x id' r X; cbn [LinearModel.told In] in X; try contradiction.
    destruct X as [X|[]]. destruct x; cbn in X; [injection X as -> ->; auto|discriminate].
  Qed.
  Lemma woken_answer : forall o id x id' r, In (Return id' (Answer r)) (woken id o x) -> id' = id /\ x = Some r.
  Proof.
    intros [] id x id' r X; cbn [LinearModel.woken In] in X; try contradiction.
    destruct X as [X|[]]. destruct x; cbn in X; [injection X as -> ->; auto|discriminate].
  Qed.
  Lemma failed_answer : forall l id r, ~ In (Return id (Answer r)) (failed_events l).
  Proof.
    intros l id r X. unfold LinearModel.failed_events in X. apply in_flat_map in X. destruct X as (y & _ & X).
    apply woken_answer in X. destruct X. discriminate.
  Qed.
  Lemma reply_In : forall s c id x c' id' r, In (c', id', Some r) (reply_on s c id x) -> id' = id /\ x = Some r.
  Proof.
    intros s c id x c' id' r X. unfold LinearModel.reply_on in X. destruct (is_closed s c); [contradiction|].
    destruct X as [X|[]]. injection X as -> -> ->. auto.
  Qed.
  Lemma sent_In : forall s o id x c' id' r, In (c', id', Some r) (sent s o id x) -> id' = id /\ x = Some r.
  Proof. intros s [] id x c' id' r X; try contradiction. eapply reply_In; eauto. Qed.
  Lemma passed_In : forall s o id x c' id' r, In (c', id', Some r) (passed s id o x) -> id' = id /\ x = Some r.
  Proof. intros s [] id x c' id' r X; try contradiction. eapply reply_In; eauto. Qed.
  Lemma failed_replies_In : forall s l c id r, ~ In (c, id, Some r) (failed_replies s l).
  Proof.
    intros s l c id r X. unfold LinearModel.failed_replies in X. apply in_flat_map in X. destruct X as (y & _ & X).
    apply passed_In in X. destruct X. discriminate.
  Qed.

  (** *** At most one token per call *)
  Record T (tr : list event) (s : st) : Prop := {
    t_calls : forall id, In id (calls s) <-> In id (invoked tr);
    t_nodup : NoDup (invoked tr);
    t_one : forall id, cnt id (ids (wire s)) + cnt id (ids (tasks s)) + cnt id (ids (queue s)) + cnt id (begun tr) <= 1;
    t_wire : forall c id m, In (c, id, m) (wire s) -> In (Invoke id m) tr;
    t_tasks : forall c id m, In (c, id, m) (tasks s) -> In (Invoke id m) tr;
    t_queue : forall o id m, In (o, id, m) (queue s) -> In (Invoke id m) tr;
    t_begun : forall id, In id (begun tr) -> In id (calls s) }.

  Lemma T_init : T [] (start_state St M K R initial).
  Proof.
    constructor; cbn; try tauto.
    - constructor.
    - lia.
  Qed.

  (** Steps in which no request moves. *)
  Lemma T_still : forall tr out s s', T tr s -> only_returns out ->
    calls s' = calls s -> wire s' = wire s -> tasks s' = tasks s -> queue s' = queue s -> T (tr ++ out) s'.
  Proof.
    intros tr out s s' I O E1 E2 E3 E4. destruct (returns_nothing _ O) as [N1 N2]. destruct I.
    constructor; rewrite ?invoked_app, ?begun_app, ?N1, ?N2, ?app_nil_r, ?E1, ?E2, ?E3, ?E4; auto;
      intros; apply in_or_app; left; eauto.
  Qed.

  Lemma absent : forall tr s id, T tr s -> ~ In id (calls s) ->
    cnt id (ids (wire s)) = 0 /\ cnt id (ids (tasks s)) = 0 /\ cnt id (ids (queue s)) = 0 /\ cnt id (begun tr) = 0.
  Proof.
    intros tr s id I N. destruct I.
    assert (G : forall m, ~ In (Invoke id m) tr).
    { intros m X. apply N, t_calls0. apply In_invoked. eauto. }
    repeat split; apply cnt_none; intros X.
    - unfold ids in X. apply in_map_iff in X. destruct X as ([[c i] m] & E & X). cbn in E. subst. eapply G; eauto.
    - unfold ids in X. apply in_map_iff in X. destruct X as ([[c i] m] & E & X). cbn in E. subst. eapply G; eauto.
    - unfold ids in X. apply in_map_iff in X. destruct X as ([[c i] m] & E & X). cbn in E. subst. eapply G; eauto.
    - auto.
  Qed.

  (** A new call puts at most one token somewhere. *)
  Lemma T_new : forall tr out s s' id m, T tr s -> ~ In id (calls s) ->
    only_returns out -> calls s' = id :: calls s ->
    (exists dw, wire s' = wire s ++ dw /\ tasks s' = tasks s /\
      exists dq, queue s' = queue s ++ dq /\
      length dw + length dq <= 1 /\ (forall c i x, In (c, i, x) dw -> i = id /\ x = m) /\
      (forall c i x, In (c, i, x) dq -> i = id /\ x = m)) ->
    T (tr ++ Invoke id m :: out) s'.
  Proof.
    intros tr out s s' id m I N O Ec (dw & Ew & Et & dq & Eq & L & Pw & Pq).
    destruct (returns_nothing _ O) as [N1 N2]. destruct (absent _ _ _ I N) as (A1 & A2 & A3 & A4).
    assert (NI : ~ In id (invoked tr)) by (intros X; apply N, (t_calls _ _ I), X).
    assert (Ei : invoked (tr ++ Invoke id m :: out) = invoked tr ++ [id]).
    { rewrite invoked_app. f_equal. change (invoked (Invoke id m :: out)) with (id :: invoked out). now rewrite N1. }
    assert (Eb : begun (tr ++ Invoke id m :: out) = begun tr).
    { rewrite begun_app. change (begun (Invoke id m :: out)) with (begun out). now rewrite N2, app_nil_r. }
    destruct I. constructor; rewrite ?Ei, ?Eb, ?Ec, ?Ew, ?Et, ?Eq.
    - intros i. rewrite in_app_iff. cbn [In]. rewrite t_calls0. tauto.
    - apply NoDup_cnt. intros i. rewrite cnt_app, cnt_cons. cbn [cnt count_occ].
      pose proof (proj1 (NoDup_count_occ Nat.eq_dec _) t_nodup0 i) as U. fold (cnt i (invoked tr)) in U.
      destruct (Nat.eq_dec id i); [subst; rewrite cnt_none; auto|lia].
    - intros i. rewrite !ids_app, !cnt_app. specialize (t_one0 i).
      assert (Dw : forall (A : Type) (l : list (A * nat * M)), (forall c j x, In (c, j, x) l -> j = id /\ x = m) ->
        cnt i (ids l) <= (if Nat.eq_dec id i then length l else 0)).
      { clear. intros A l P. induction l as [|[[c j] x] l IH]; [cbn; destruct (Nat.eq_dec id i); lia|].
        unfold ids in *. cbn [map snd fst]. rewrite cnt_cons. cbn [length].
        destruct (P c j x (or_introl eq_refl)) as [-> _].
        assert (cnt i (map (fun e => snd (fst e)) l) <= (if Nat.eq_dec id i then length l else 0))
          by (apply IH; intros; eapply P; right; eauto).
        destruct (Nat.eq_dec id i); lia. }
      pose proof (Dw _ dw Pw). pose proof (Dw _ dq Pq).
      destruct (Nat.eq_dec id i); [subst i; lia|lia].
    - intros c i x X. apply in_or_app. apply in_app_iff in X. destruct X as [X|X]; [eauto|].
      apply Pw in X. destruct X as [-> ->]. right. now left.
    - intros c i x X. apply in_or_app. eauto.
    - intros c i x X. apply in_or_app. apply in_app_iff in X. destruct X as [X|X]; [eauto|].
      apply Pq in X. destruct X as [-> ->]. right. now left.
    - intros i X. right. auto.
  Qed.

  (** Requests that move, or vanish, without an execution starting. *)
  Lemma T_move : forall tr out s s', T tr s -> only_returns out -> calls s' = calls s ->
    (forall id, cnt id (ids (wire s')) + cnt id (ids (tasks s')) + cnt id (ids (queue s')) <=
       cnt id (ids (wire s)) + cnt id (ids (tasks s)) + cnt id (ids (queue s))) ->
    (forall c id m, In (c, id, m) (wire s') -> In (Invoke id m) tr) ->
    (forall c id m, In (c, id, m) (tasks s') -> In (Invoke id m) tr) ->
    (forall c id m, In (c, id, m) (queue s') -> In (Invoke id m) tr) -> T (tr ++ out) s'.
  Proof.
    intros tr out s s' I O Ec L Pw Pt Pq. destruct (returns_nothing _ O) as [N1 N2]. destruct I.
    constructor; rewrite ?invoked_app, ?begun_app, ?N1, ?N2, ?app_nil_r, ?Ec; auto;
      try (intros; apply in_or_app; left; eauto; fail).
    intros id. specialize (t_one0 id). specialize (L id). lia.
  Qed.

  Ltac ret := repeat first [apply told_returns | apply woken_returns | apply failed_returns
    | (apply cons_returns; [exact I|]) | (intros ? []; fail)].
  Ltac cs := cbn [LinearModel.calls LinearModel.wire LinearModel.tasks LinearModel.queue LinearModel.holder
    LinearModel.actor LinearModel.replies LinearModel.pending LinearModel.closed LinearModel.dead].

  Lemma T_step : forall tr s out s', T tr s -> step s out s' -> T (tr ++ out) s'.
  Proof.
    intros tr s out s' IT St1. destruct St1.
    - (* invoke *) apply T_new with (s := s); auto; [ret|]. cs. exists [(c, id, m)]. split; [auto|split; [auto|]].
      exists []. rewrite app_nil_r. split; auto. split; [cbn; lia|]. split; [|intros ? ? ? []].
      intros ? ? ? [X|[]]. now injection X.
    - apply T_new with (s := s); auto; [ret|]. cs. eexists. split; [reflexivity|split; [auto|]].
      exists []. rewrite app_nil_r. split; auto. destruct on_its_way; (split; [cbn; lia|split; [|intros ? ? ? []]]).
      + intros ? ? ? [X|[]]. now injection X.
      + intros ? ? ? [].
    - apply T_new with (s := s); auto; [ret|]. cs. exists []. rewrite app_nil_r. split; [auto|split; [auto|]].
      eexists. split; [reflexivity|]. split; [cbn; lia|]. split; [intros ? ? ? []|].
      intros ? ? ? [X|[]]. now injection X.
    - apply T_new with (s := s); auto; [ret|]. cs. exists []. rewrite app_nil_r. split; [auto|split; [auto|]].
      eexists. split; [reflexivity|]. split; [cbn; lia|]. split; [intros ? ? ? []|].
      intros ? ? ? [X|[]]. now injection X.
    - apply T_still with (s := s); auto. ret.
    - apply T_still with (s := s); auto. ret.
    - (* receive *) rewrite <- (app_nil_r tr) at 1. rewrite app_nil_r. apply T_move with (s := s); auto; cs; [ret| | | |].
      + intros i. rewrite H, !ids_app, !cnt_app. unfold ids. cbn [map snd fst]. rewrite !cnt_cons. cbn [cnt count_occ]. lia.
      + intros c' i x X. apply (t_wire _ _ IT c'). rewrite H. apply in_app_iff in X. apply in_or_app. cbn [In]. tauto.
      + intros c' i x X. apply in_app_iff in X. destruct X as [X|[X|[]]]; [eapply t_tasks; eauto|].
        injection X as _ <- <-. apply (t_wire _ _ IT c). rewrite H. apply in_or_app. right. now left.
      + apply (t_queue _ _ IT).
    - (* enter *) apply T_move with (s := s); auto; cs; [ret| | | |].
      + intros i. rewrite H, !ids_app, !cnt_app. unfold ids. cbn [map snd fst]. rewrite !cnt_cons. cbn [cnt count_occ]. lia.
      + apply (t_wire _ _ IT).
      + intros c' i x X. apply (t_tasks _ _ IT c'). rewrite H. apply in_app_iff in X. apply in_or_app. cbn [In]. tauto.
      + intros c' i x X. apply in_app_iff in X. destruct X as [X|[X|[]]]; [eapply t_queue; eauto|].
        injection X as _ <- <-. apply (t_tasks _ _ IT c). rewrite H. apply in_or_app. right. now left.
    - (* forward *) apply T_move with (s := s); auto; cs; [ret| | | |].
      + intros i. rewrite H, !ids_app, !cnt_app. unfold ids. cbn [map snd fst]. rewrite !cnt_cons. cbn [cnt count_occ]. lia.
      + intros c0 i x X. apply in_app_iff in X. destruct X as [X|[X|[]]]; [eapply t_wire; eauto|].
        injection X as _ <- <-. apply (t_tasks _ _ IT c). rewrite H. apply in_or_app. right. now left.
      + intros c0 i x X. apply (t_tasks _ _ IT c0). rewrite H. apply in_app_iff in X. apply in_or_app. cbn [In]. tauto.
      + apply (t_queue _ _ IT).
    - (* refuse *) apply T_move with (s := s); auto; cs; [ret| | | |].
      + intros i. rewrite H, !ids_app, !cnt_app. unfold ids. cbn [map snd fst]. rewrite !cnt_cons. lia.
      + apply (t_wire _ _ IT).
      + intros c0 i x X. apply (t_tasks _ _ IT c0). rewrite H. apply in_app_iff in X. apply in_or_app. cbn [In]. tauto.
      + apply (t_queue _ _ IT).
    - (* acquire *) destruct IT. constructor; cs; rewrite ?invoked_app, ?begun_app; cbn [invoked begun flat_map app];
        rewrite ?app_nil_r; auto; try (intros; apply in_or_app; left; eauto; fail).
      + intros i. specialize (t_one0 i). rewrite H in t_one0. unfold ids in *. cbn [map snd fst] in t_one0.
        rewrite cnt_cons in t_one0. rewrite cnt_app, cnt_cons. cbn [cnt count_occ]. lia.
      + intros o' i x X. apply in_or_app. left. apply (t_queue0 o'). rewrite H. now right.
      + intros i X. apply in_app_iff in X. destruct X as [X|[<-|[]]]; [auto|]. apply t_calls0, In_invoked.
        exists m. apply (t_queue0 o). rewrite H. now left.
    - apply T_still with (s := s); auto. ret.
    - (* done *) replace (tr ++ Done id r :: told o id (Some r)) with ((tr ++ [Done id r]) ++ told o id (Some r))
        by (rewrite <- app_assoc; reflexivity).
      apply T_still with (s := s); auto; [|ret].
      destruct IT. constructor; rewrite ?invoked_app, ?begun_app; cbn [invoked begun flat_map app];
        rewrite ?app_nil_r; auto; intros; apply in_or_app; left; eauto.
    - replace (tr ++ Done id r :: Trouble :: told o id None) with ((tr ++ [Done id r]) ++ Trouble :: told o id None)
        by (rewrite <- app_assoc; reflexivity).
      apply T_still with (s := s); auto; [|ret].
      destruct IT. constructor; rewrite ?invoked_app, ?begun_app; cbn [invoked begun flat_map app];
        rewrite ?app_nil_r; auto; intros; apply in_or_app; left; eauto.
    - apply T_still with (s := s); auto. ret.
    - (* drop *) apply T_move with (s := s); auto; cs; [ret| | | |].
      + intros i. rewrite H, !ids_app, !cnt_app. unfold ids. cbn [map snd fst]. rewrite !cnt_cons. lia.
      + apply (t_wire _ _ IT).
      + apply (t_tasks _ _ IT).
      + intros c0 i x X. apply (t_queue _ _ IT c0). rewrite H. apply in_app_iff in X. apply in_or_app. cbn [In]. tauto.
    - apply T_still with (s := s); auto. ret.
    - apply T_still with (s := s); auto. ret.
    - apply T_still with (s := s); auto. ret.
    - apply T_still with (s := s); auto. ret.
    - (* crash *) apply T_move with (s := s); auto; cs; [ret| | | |].
      + intros i. pose proof (cnt_filter i _ _ (fun t => negb (dst (fst (fst t)) =? n)) (tasks s)). lia.
      + apply (t_wire _ _ IT).
      + intros c i x X. apply filter_In in X. eapply t_tasks; [eauto|apply X].
      + apply (t_queue _ _ IT).
    - (* crash home *) apply T_move with (s := s); auto; cs.
      + destruct (holder s) as [[[o id] k]|]; ret.
      + intros i. pose proof (cnt_filter i _ _ (fun t => negb (dst (fst (fst t)) =? home)) (tasks s)). cbn. lia.
      + apply (t_wire _ _ IT).
      + intros c i x X. apply filter_In in X. eapply t_tasks; [eauto|apply X].
      + intros ? ? ? [].
    - (* recreate *)
      match goal with |- T _ ?s1 => assert (G : T (tr ++ [Trouble]) s1) end.
      { apply T_move with (s := s); auto; cs.
        + ret.
        + intros i. pose proof (cnt_filter i _ _ (fun t => negb (dst (fst (fst t)) =? home)) (tasks s)).
          pose proof (cnt_filter i _ _ (fun t => negb (dst (fst (fst t)) =? home)) (wire s)). cbn. lia.
        + intros c i x X. apply filter_In in X. eapply t_wire; [eauto|apply X].
        + intros c i x X. apply filter_In in X. eapply t_tasks; [eauto|apply X].
        + intros ? ? ? []. }
      change [Trouble; Recreated] with ([@Trouble M R] ++ [Recreated]). rewrite app_assoc.
      destruct G. constructor; rewrite ?invoked_app, ?begun_app; cbn [invoked begun flat_map app];
        rewrite ?app_nil_r; auto; rewrite ?invoked_app, ?begun_app in *; cbn [invoked begun flat_map app] in *;
        rewrite ?app_nil_r in *; auto; intros; apply in_or_app; left; eauto.
  Qed.

  Lemma run_T : forall tr s, run tr s -> T tr s.
  Proof. induction 1; [apply T_init|eapply T_step; eauto]. Qed.

  (** *** Executions, one by one *)
  Notation goes := (goes St K R resume).
  Notation one_by_one := (one_by_one St M K R start resume).
  Definition is_call (tr : list event) (id : nat) (m : M) : Prop := In (Invoke id m) tr.

  Lemma obo_more : forall tr out l s s', one_by_one (is_call tr) l s s' -> one_by_one (is_call (tr ++ out)) l s s'.
  Proof.
    induction 1; [constructor|eapply obo_full|eapply obo_part]; eauto; apply in_or_app; left; assumption.
  Qed.

  (** A life of the actor: from its creation to the next; and the calls executed in it. *)
  Definition life_ok (tr : list event) (x : list event * list (nat * option R)) (a : St) : Prop :=
    ~ In Recreated (fst x) /\ one_by_one (is_call tr) (snd x) initial a /\
    (forall id r, In (id, Some r) (snd x) <-> In (Done id r) (fst x)).
  Definition joined (olds : list (list event * list (nat * option R))) : list event :=
    flat_map (fun x => fst x ++ [Recreated]) olds.

  Definition S1 (tr : list event) (s : st) : Prop :=
    exists olds life l s1, tr = joined olds ++ life /\
      (forall x, In x olds -> map fst (snd x) = begun (fst x) /\ exists a, life_ok tr x a) /\
      life_ok tr (life, l) s1 /\
      match holder s with
      | None => actor s = s1 /\ begun life = map fst l
      | Some (_, id, k) => begun life = map fst l ++ [id] /\
          exists m, In (Invoke id m) tr /\ goes (start m) s1 k (actor s)
      end.

  Lemma life_more : forall tr out x a, life_ok tr x a -> life_ok (tr ++ out) x a.
  Proof. intros tr out x a (A & B & C). split; [auto|split; [now apply obo_more|auto]]. Qed.
  Lemma olds_more : forall tr out (olds : list (list event * list (nat * option R))), (forall x, In x olds -> map fst (snd x) = begun (fst x) /\ exists a, life_ok tr x a) ->
    forall x, In x olds -> map fst (snd x) = begun (fst x) /\ exists a, life_ok (tr ++ out) x a.
  Proof. intros tr out olds H x X. destruct (H x X) as [A [a B]]. split; auto. exists a. now apply life_more. Qed.
  Lemma returns_not_recreated : forall out, only_returns out -> ~ In Recreated out.
  Proof. intros out O X. exact (O _ X). Qed.

  Lemma S_still : forall tr out s s', S1 tr s -> begun out = [] -> (forall id r, ~ In (Done id r) out) -> ~ In Recreated out ->
    holder s' = holder s -> actor s' = actor s -> S1 (tr ++ out) s'.
  Proof.
    intros tr out s s' (olds & life & l & s1 & E & Q & (L1 & L2 & L3) & H) B N NR E1 E2. exists olds, (life ++ out), l, s1.
    split; [rewrite E, app_assoc; reflexivity|]. split; [now apply olds_more|]. split.
    - split; [|split].
      + cbn [fst]. rewrite in_app_iff. tauto.
      + now apply obo_more.
      + intros id r. cbn [fst snd] in *. rewrite in_app_iff, L3. split; [auto|]. intros [X|X]; [auto|]. elim (N _ _ X).
    - rewrite E1, E2, begun_app, B, app_nil_r. destruct (holder s) as [[[o id] k]|]; auto.
      destruct H as (H1 & m & H2 & H3). split; auto. exists m. split; auto. apply in_or_app. auto.
  Qed.
  Lemma S_returns : forall tr out s s', S1 tr s -> only_returns out ->
    holder s' = holder s -> actor s' = actor s -> S1 (tr ++ out) s'.
  Proof.
    intros tr out s s' I O. destruct (returns_nothing _ O). eapply S_still; eauto.
    - intros id r. now apply returns_not_done.
    - now apply returns_not_recreated.
  Qed.

  (** The running call ends: completely or midway. *)
  Lemma S_done : forall tr s s' o id k r a out, S1 tr s -> holder s = Some (o, id, k) -> resume k (actor s) = (a, inr r) ->
    only_returns out -> holder s' = None -> actor s' = a -> S1 (tr ++ Done id r :: out) s'.
  Proof.
    intros tr s s' o id k r a out (olds & life & l & s1 & E & Q & (L1 & L2 & L3) & H) Eh Er O E1 E2.
    rewrite Eh in H. destruct H as (B & m & Im & G). cbn [fst snd] in *.
    destruct (returns_nothing _ O) as [_ NB].
    exists olds, (life ++ Done id r :: out), (l ++ [(id, Some r)]), a. split; [rewrite E, app_assoc; reflexivity|].
    split; [now apply olds_more|]. split; [split; [|split]|]; cbn [fst snd].
    - rewrite in_app_iff. intros [X|[X|X]]; [auto|discriminate|]. elim (returns_not_recreated _ O X).
    - eapply obo_full; [apply obo_more; exact L2| |].
      + apply in_or_app. left. exact Im.
      + exists k, (actor s). auto.
    - intros i x. rewrite !in_app_iff, L3. cbn [In]. split.
      + intros [X|[X|[]]]; [auto|]. injection X as <- <-. auto.
      + intros [X|[X|X]]; [auto| |].
        * injection X as <- <-. auto.
        * elim (returns_not_done _ _ _ O X).
    - rewrite E1. split; auto. rewrite begun_app, map_app, B.
      change (begun (Done id r :: out)) with (begun out). rewrite NB, app_nil_r. reflexivity.
  Qed.
  Lemma S_abort : forall tr s s' o id k out, S1 tr s -> holder s = Some (o, id, k) ->
    only_returns out -> holder s' = None -> actor s' = actor s -> S1 (tr ++ out) s'.
  Proof.
    intros tr s s' o id k out (olds & life & l & s1 & E & Q & (L1 & L2 & L3) & H) Eh O E1 E2.
    rewrite Eh in H. destruct H as (B & m & Im & G). cbn [fst snd] in *.
    destruct (returns_nothing _ O) as [_ NB].
    exists olds, (life ++ out), (l ++ [(id, None)]), (actor s). split; [rewrite E, app_assoc; reflexivity|].
    split; [now apply olds_more|]. split; [split; [|split]|]; cbn [fst snd].
    - rewrite in_app_iff. intros [X|X]; [auto|]. elim (returns_not_recreated _ O X).
    - eapply obo_part; [apply obo_more; exact L2| |].
      + apply in_or_app. left. exact Im.
      + exists k. auto.
    - intros i x. rewrite !in_app_iff, L3. cbn [In]. split.
      + intros [X|[X|[]]]; [auto|]. discriminate.
      + intros [X|X]; [auto|]. elim (returns_not_done _ _ _ O X).
    - rewrite E1. split; auto. rewrite begun_app, map_app, B, NB, app_nil_r. reflexivity.
  Qed.
  (** A life ends and the next begins. *)
  Lemma S_recreate : forall tr s s', S1 tr s -> holder s = None -> holder s' = None -> actor s' = initial ->
    S1 (tr ++ [Recreated]) s'.
  Proof.
    intros tr s s' (olds & life & l & s1 & E & Q & L & H) Eh E1 E2. rewrite Eh in H. destruct H as [_ B].
    exists (olds ++ [(life, l)]), [], [], initial. split; [|split; [|split]].
    - unfold joined. rewrite flat_map_app. cbn [flat_map fst app]. rewrite !app_nil_r, E, app_assoc. reflexivity.
    - intros x X. apply in_app_iff in X. destruct X as [X|[<-|[]]]; [now apply (olds_more tr _ olds)|].
      split; [auto|]. exists s1. now apply life_more.
    - split; [intros []|]. split; [constructor|]. cbn. tauto.
    - rewrite E1. cbn. auto.
  Qed.

  Lemma S_step : forall tr s out s', T tr s -> S1 tr s -> step s out s' -> S1 (tr ++ out) s'.
  Proof.
    intros tr s out s' IT IS St1. destruct St1;
      try (eapply S_returns; [exact IS|ret|reflexivity|reflexivity]; fail);
      try (eapply S_still; [exact IS|reflexivity| | |reflexivity|reflexivity];
           [intros i r X|intros X]; cbn [In] in X; repeat (destruct X as [X|X]; [discriminate X|]); contradiction).
    - (* acquire *) destruct IS as (olds & life & l & s1 & E & Q & (L1 & L2 & L3) & Hh). rewrite H0 in Hh. destruct Hh as [-> B].
      cbn [fst snd] in *.
      exists olds, (life ++ [Begin id]), l, s1. split; [rewrite E, app_assoc; reflexivity|].
      split; [now apply olds_more|]. split; [split; [|split]|]; cbn [fst snd].
      + rewrite in_app_iff. intros [X|[X|[]]]; [auto|discriminate].
      + now apply obo_more.
      + intros i r. rewrite in_app_iff, L3. cbn [In]. split; [auto|]. intros [X|[X|[]]]; [auto|discriminate].
      + cs. rewrite begun_app, B. split; [reflexivity|]. exists m. split; [|constructor].
        apply in_or_app. left. apply (t_queue _ _ IT o). rewrite H. now left.
    - (* work *) destruct IS as (olds & life & l & s1 & E & Q & L & Hh). rewrite H in Hh. destruct Hh as (B & m & Im & G).
      exists olds, life, l, s1. rewrite app_nil_r. split; [exact E|]. split; [exact Q|]. split; [exact L|]. cs. split; auto. exists m. split; auto.
      eapply goes_step; eauto.
    - eapply S_done; eauto. ret.
    - eapply S_done; eauto. ret.
    - eapply S_abort; eauto. ret.
    - destruct (holder s) as [[[o id] k]|] eqn:Eh.
      + eapply S_abort; eauto. ret.
      + eapply S_returns; [exact IS|ret|now rewrite Eh|reflexivity].
    - (* recreate *) change [Trouble; Recreated] with ([@Trouble M R] ++ [Recreated]). rewrite app_assoc.
      eapply (S_recreate _ (mk St M K R (calls s) (wire s) (tasks s) (queue s) None (actor s) (replies s) (pending s) (closed s) (dead s)));
        [|reflexivity|reflexivity|reflexivity].
      destruct (holder s) as [[[o id] k]|] eqn:Eh.
      + eapply S_abort; eauto. ret.
      + eapply S_returns; [exact IS|ret|now rewrite Eh|reflexivity].
  Qed.

  Lemma run_S : forall tr s, run tr s -> S1 tr s.
  Proof.
    induction 1 as [|tr s out s' R1 IH St1].
    - exists [], [], [], initial. split; [reflexivity|]. split; [intros ? []|]. split; [split; [intros []|split; [constructor|cbn; tauto]]|]. cbn. auto.
    - eapply S_step; eauto. now apply run_T.
  Qed.

  (** *** Answers *)
  Lemma reply_done : forall tr s, run tr s -> forall c id r, In (c, id, Some r) (replies s) -> In (Done id r) tr.
  Proof.
    induction 1 as [|tr s out s' R1 IH St1]; intros c0 i x X; [contradiction|].
    apply in_or_app. assert (G : In (c0, i, Some x) (replies s) -> In (Done i x) tr \/ In (Done i x) out) by eauto.
    destruct St1; cs; cbn [LinearModel.replies] in X; auto.
    - apply in_app_iff in X. destruct X as [X|X]; [auto|]. apply reply_In in X. destruct X. discriminate.
    - apply in_app_iff in X. destruct X as [X|X]; [auto|]. apply reply_In in X. destruct X. discriminate.
    - apply in_app_iff in X. destruct X as [X|X]; [auto|]. apply sent_In in X. destruct X as [-> X]. injection X as ->.
      right. now left.
    - apply in_app_iff in X. destruct X as [X|X]; [auto|]. apply sent_In in X. destruct X. discriminate.
    - apply in_app_iff in X. destruct X as [X|X]; [auto|]. apply sent_In in X. destruct X. discriminate.
    - apply in_app_iff in X. destruct X as [X|X]; [auto|]. apply sent_In in X. destruct X. discriminate.
    - rewrite !in_app_iff in X. destruct X as [X|[X|X]].
      + apply G. rewrite H. apply in_or_app. auto.
      + apply G. rewrite H. apply in_or_app. right. now right.
      + apply passed_In in X. destruct X as [-> ->]. left. apply (IH c). rewrite H. apply in_or_app. right. now left.
    - rewrite !in_app_iff in X. destruct X as [X|[X|X]].
      + apply G. rewrite H. apply in_or_app. auto.
      + apply G. rewrite H. apply in_or_app. right. now right.
      + apply passed_In in X. destruct X. discriminate.
    - rewrite !in_app_iff in X. destruct X as [X|[X|X]].
      + apply G. rewrite H. apply in_or_app. auto.
      + apply G. rewrite H. apply in_or_app. right. now right.
      + elim (failed_replies_In _ _ _ _ _ X).
    - apply in_app_iff in X. destruct X as [X|X].
      + apply filter_In in X. apply G, X.
      + elim (failed_replies_In _ _ _ _ _ X).
  Qed.

  Lemma answer_done : forall tr s, run tr s -> forall t1 id r t2,
    tr = t1 ++ Return id (Answer r) :: t2 -> In (Done id r) t1.
  Proof.
    induction 1 as [|tr s out s' R1 IH St1]; intros t1 i x t2 E; [destruct t1; discriminate|].
    apply split_app in E. destruct E as [(t2' & -> & E)|(o1 & E & ->)]; [eauto|].
    apply in_or_app.
    assert (X : In (Return i (Answer x)) out) by (rewrite E; apply in_or_app; right; now left).
    destruct St1; cbn [In] in X;
      try (repeat (destruct X as [X|X]; [discriminate X|]); contradiction).
    - destruct X as [X|X]; [discriminate|]. apply told_answer in X. destruct X as [-> X]. injection X as ->.
      right. destruct o1 as [|e o1]; [discriminate|]. cbn [app] in E. injection E as <- _. now left.
    - repeat (destruct X as [X|X]; [discriminate|]). apply told_answer in X. destruct X. discriminate.
    - repeat (destruct X as [X|X]; [discriminate|]). apply told_answer in X. destruct X. discriminate.
    - repeat (destruct X as [X|X]; [discriminate|]). apply told_answer in X. destruct X. discriminate.
    - apply woken_answer in X. destruct X as [-> ->]. left. eapply reply_done; [exact R1|]. rewrite H. apply in_or_app. right. now left.
    - repeat (destruct X as [X|X]; [discriminate|]). apply woken_answer in X. destruct X. discriminate.
    - repeat (destruct X as [X|X]; [discriminate|]). elim (failed_answer _ _ _ X).
    - repeat (destruct X as [X|X]; [discriminate|]). elim (failed_answer _ _ _ X).
    - repeat (destruct X as [X|X]; [discriminate|]). destruct (holder s) as [[[? ?] ?]|]; cbn [In] in X;
        repeat (destruct X as [X|X]; [discriminate|]); contradiction.
  Qed.

  Lemma returns_no_begin : forall out id, only_returns out -> ~ In (Begin id) out.
  Proof. intros out id O X. exact (O _ X). Qed.

  Lemma done_begun : forall tr s, run tr s -> forall t1 id r t2,
    tr = t1 ++ Done id r :: t2 -> In (Begin id) t1.
  Proof.
    induction 1 as [|tr s out s' R1 IH St1]; intros t1 i x t2 E; [destruct t1; discriminate|].
    apply split_app in E. destruct E as [(t2' & -> & E)|(o1 & E & ->)]; [eauto|].
    apply in_or_app. left.
    assert (X : In (Done i x) out) by (rewrite E; apply in_or_app; right; now left).
    assert (G : exists o k, holder s = Some (o, i, k)).
    { destruct St1; try (exfalso; eapply returns_not_done; [|exact X]; ret; fail);
        try (exfalso; cbn [In] in X; repeat (destruct X as [X|X]; [discriminate X|]); contradiction).
      - destruct X as [X|X]; [injection X as -> _; eauto|]. exfalso. eapply returns_not_done; [|exact X]. ret.
      - destruct X as [X|X]; [injection X as -> _; eauto|]. exfalso. eapply returns_not_done; [|exact X]. ret.
      - exfalso. destruct (holder s) as [[[? ?] ?]|]; eapply returns_not_done; try exact X; ret. }
    destruct G as (o & k & G). destruct (run_S _ _ R1) as (olds & life & l & s1 & -> & _ & _ & Hh). rewrite G in Hh.
    destruct Hh as [B _]. apply In_begun. rewrite begun_app, B. apply in_or_app. right. apply in_or_app. right. now left.
  Qed.

  Lemma begin_invoked : forall tr s, run tr s -> forall t1 id t2,
    tr = t1 ++ Begin id :: t2 -> exists m, In (Invoke id m) t1.
  Proof.
    induction 1 as [|tr s out s' R1 IH St1]; intros t1 i t2 E; [destruct t1; discriminate|].
    apply split_app in E. destruct E as [(t2' & -> & E)|(o1 & E & ->)]; [eauto|].
    assert (X : In (Begin i) out) by (rewrite E; apply in_or_app; right; now left).
    assert (G : exists o m, In (o, i, m) (queue s)).
    { destruct St1; try (exfalso; eapply returns_no_begin; [|exact X]; ret; fail);
        try (exfalso; cbn [In] in X; repeat (destruct X as [X|X]; [discriminate X|]); contradiction).
      - destruct X as [X|[]]. injection X as ->. exists o, m. rewrite H. now left.
      - exfalso. destruct X as [X|X]; [discriminate|]. eapply returns_no_begin; [|exact X]. ret.
      - exfalso. destruct X as [X|X]; [discriminate|]. eapply returns_no_begin; [|exact X]. ret.
      - exfalso. destruct (holder s) as [[[? ?] ?]|]; eapply returns_no_begin; try exact X; ret. }
    destruct G as (o & m & G). exists m. apply in_or_app. left. exact (t_queue _ _ (run_T _ _ R1) _ _ _ G).
  Qed.

  (** The order of executions: everything that has begun. *)
  Lemma order_exists : forall tr s, run tr s -> exists olds life l,
    tr = joined olds ++ life /\
    (forall x, In x olds -> map fst (snd x) = begun (fst x) /\ exists a, life_ok tr x a) /\
    life_ok tr (life, l) (actor s) /\ map fst l = begun life.
  Proof.
    intros tr s R1. destruct (run_S _ _ R1) as (olds & life & l & s1 & E & Q & (L1 & L2 & L3) & Hh).
    exists olds, life.
    destruct (holder s) as [[[o id] k]|].
    - destruct Hh as (B & m & Im & G). exists (l ++ [(id, None)]). split; [exact E|]. split; [exact Q|].
      split; [split; [exact L1|split]|]; cbn [fst snd] in *.
      + eapply obo_part; eauto. now exists k.
      + intros i r. rewrite in_app_iff, <- L3. cbn [In]. split; [intros [X|[X|[]]]; [auto|discriminate]|auto].
      + now rewrite map_app, B.
    - destruct Hh as [-> B]. exists l. split; [exact E|]. split; [exact Q|]. split; [split; auto|auto].
  Qed.
  Lemma joined_begun : forall olds, (forall x, In x olds -> map fst (snd x) = begun (fst x)) ->
    begun (joined olds) = map fst (concat (map snd olds)).
  Proof.
    induction olds as [|x olds IH]; intros H; [reflexivity|]. unfold joined. cbn [flat_map map concat].
    rewrite begun_app, begun_app, map_app. cbn [begun flat_map app]. rewrite app_nil_r, (H x (or_introl eq_refl)).
    f_equal. apply IH. intros y Y. apply H. now right.
  Qed.
  Lemma joined_done : forall olds id r, (forall x, In x olds -> In (id, Some r) (snd x) <-> In (Done id r) (fst x)) ->
    In (id, Some r) (concat (map snd olds)) <-> In (Done id r) (joined olds).
  Proof.
    intros olds id r H. unfold joined. rewrite in_concat, in_flat_map. split.
    - intros (o & X & Y). apply in_map_iff in X. destruct X as (x & <- & X). exists x. split; auto.
      apply in_or_app. left. now apply H.
    - intros (x & X & Y). exists (snd x). split; [now apply in_map|]. apply in_app_iff in Y.
      destruct Y as [Y|[Y|[]]]; [now apply H|discriminate].
  Qed.

  Lemma begun_once : forall tr s, run tr s -> NoDup (begun tr).
  Proof.
    intros tr s R1. apply NoDup_cnt. intros id. pose proof (t_one _ _ (run_T _ _ R1) id). lia.
  Qed.

  Lemma NoDup_split : forall (l1 l2 : list nat) x, NoDup (l1 ++ l2) -> In x l1 -> In x l2 -> False.
  Proof.
    induction l1 as [|y l1 IH]; intros l2 x N X Y; [contradiction|]. cbn [app] in N. inversion N; subst.
    destruct X as [<-|X]; [apply H1, in_or_app; auto|eauto].
  Qed.

  Lemma real_time : forall tr s, run tr s -> forall t1 a r t2 b,
    tr = t1 ++ Return a (Answer r) :: t2 -> In b (invoked t2) -> In b (begun tr) ->
    stands_before (begun tr) a b.
  Proof.
    intros tr s R1 t1 a r t2 b E Ib Bb.
    assert (Da := answer_done _ _ R1 _ _ _ _ E). apply in_split in Da. destruct Da as (u1 & u2 & Eu).
    assert (Ba : In (Begin a) u1).
    { eapply (done_begun _ _ R1 u1 a r (u2 ++ Return a (Answer r) :: t2)). rewrite E, Eu, <- app_assoc. reflexivity. }
    exists (begun t1), (begun t2). split; [rewrite E, begun_app; reflexivity|]. split.
    - rewrite Eu, begun_app. apply in_or_app. left. now apply In_begun.
    - rewrite E, begun_app in Bb. apply in_app_iff in Bb. destruct Bb as [Bb|Bb]; [|exact Bb].
      exfalso. apply In_begun, in_split in Bb. destruct Bb as (v1 & v2 & Ev).
      destruct (begin_invoked _ _ R1 v1 b (v2 ++ Return a (Answer r) :: t2)) as [m Im].
      { rewrite E, Ev, <- app_assoc. reflexivity. }
      pose proof (t_nodup _ _ (run_T _ _ R1)) as N. rewrite E, invoked_app in N.
      apply (NoDup_split _ _ b N); [|exact Ib].
      apply In_invoked. exists m. rewrite Ev. apply in_or_app. auto.
  Qed.

  (** *** If nothing goes wrong, everything is answered *)
  Definition num {A} (f : A -> bool) (l : list A) : nat := length (filter f l).
  Lemma num_app : forall A (f : A -> bool) l l', num f (l ++ l') = num f l + num f l'.
  Proof. intros. unfold num. now rewrite filter_app, app_length. Qed.
  Lemma num_cons : forall A (f : A -> bool) x l, num f (x :: l) = (if f x then 1 else 0) + num f l.
  Proof. intros. unfold num. cbn [filter]. destruct (f x); reflexivity. Qed.
  Lemma num_nil : forall A (f : A -> bool), num f [] = 0.
  Proof. reflexivity. Qed.
  Lemma num_pos : forall A (f : A -> bool) l, 0 < num f l -> exists x, In x l /\ f x = true.
  Proof.
    intros A f l. unfold num. destruct (filter f l) as [|x l'] eqn:E; cbn [length]; [lia|]. intros _. exists x.
    apply filter_In. rewrite E. now left.
  Qed.
  Lemma num_in : forall A (f : A -> bool) l x, In x l -> f x = true -> 0 < num f l.
  Proof.
    intros A f l x X F. unfold num. assert (Y : In x (filter f l)) by (apply filter_In; auto).
    destruct (filter f l); [contradiction|cbn; lia].
  Qed.

  Definition at_conn {B} (c id : nat) (e : nat * nat * B) : bool := (fst (fst e) =? c) && (snd (fst e) =? id).
  Definition from_conn (c id : nat) (e : origin * nat * M) : bool :=
    match fst (fst e) with Via c' => (c' =? c) && (snd (fst e) =? id) | _ => false end.
  Definition held (c id : nat) (h : option (origin * nat * K)) : nat :=
    match h with Some (Via c', i, _) => if (c' =? c) && (i =? id) then 1 else 0 | _ => 0 end.
  Definition for_conn (c id : nat) (e : nat * nat * owner) : bool :=
    match snd e with Forward c' => (c' =? c) && (snd (fst e) =? id) | _ => false end.

  (** *** A caller gets at most one answer *)
  Definition returned (tr : list event) : list nat :=
    flat_map (fun e => match e with Return id _ => [id] | _ => [] end) tr.
  Lemma returned_app : forall t t', returned (t ++ t') = returned t ++ returned t'.
  Proof. intros. apply flat_map_app. Qed.
  Definition user (id : nat) (e : nat * nat * owner) : bool :=
    match snd e with User => snd (fst e) =? id | _ => false end.
  Definition local (id : nat) (e : origin * nat * M) : bool :=
    match fst (fst e) with Local => snd (fst e) =? id | _ => false end.
  Definition held_local (id : nat) (h : option (origin * nat * K)) : nat :=
    match h with Some (Local, i, _) => if i =? id then 1 else 0 | _ => 0 end.
  Definition waits_for (tr : list event) (s : st) (id : nat) : nat :=
    cnt id (returned tr) + num (user id) (pending s) + num (local id) (queue s) + held_local id (holder s).
  Definition W (tr : list event) (s : st) : Prop :=
    forall id, waits_for tr s id <= 1 /\ (~ In id (calls s) -> waits_for tr s id = 0).

  Lemma num_filter : forall A (f g : A -> bool) l, num f (filter g l) <= num f l.
  Proof.
    intros A f g l. induction l as [|x l IH]; [auto|]. cbn [filter]. rewrite num_cons.
    destruct (g x); rewrite ?num_cons; lia.
  Qed.
  Lemma register_user : forall c i o l id, num (user id) (register c i o l) <=
    num (user id) l + match o with User => if i =? id then 1 else 0 | _ => 0 end.
  Proof.
    intros c i o l id. unfold register. rewrite num_app, num_cons, num_nil.
    pose proof (num_filter _ (user id) (fun e => negb (key c i e)) l). unfold user at 2. cbn [fst snd]. destruct o; lia.
  Qed.
  Lemma told_count : forall o i x id, cnt id (returned (told o i x)) = match o with Local => if i =? id then 1 else 0 | _ => 0 end.
  Proof.
    intros o i x id. destruct o; cbn [LinearModel.told returned flat_map app]; rewrite ?cnt_cons; cbn [cnt count_occ]; try reflexivity.
    destruct (Nat.eq_dec i id) as [->|N]; [rewrite Nat.eqb_refl|apply Nat.eqb_neq in N; rewrite N]; reflexivity.
  Qed.
  Lemma woken_count : forall o i x id, cnt id (returned (woken i o x)) = match o with User => if i =? id then 1 else 0 | _ => 0 end.
  Proof.
    intros o i x id. destruct o; cbn [LinearModel.woken returned flat_map app]; rewrite ?cnt_cons; cbn [cnt count_occ]; try reflexivity.
    destruct (Nat.eq_dec i id) as [->|N]; [rewrite Nat.eqb_refl|apply Nat.eqb_neq in N; rewrite N]; reflexivity.
  Qed.
  Lemma failed_count : forall (f : nat * nat * owner -> bool) l id, cnt id (returned (failed_events (filter f l))) + num (user id) (filter (fun e => negb (f e)) l) = num (user id) l.
  Proof.
    intros f l id. unfold LinearModel.failed_events.
    induction l as [|[[c i] o] l IH]; [reflexivity|]. cbn [filter]. rewrite num_cons.
    assert (E : (if user id (c, i, o) then 1 else 0) = match o with User => if i =? id then 1 else 0 | _ => 0 end).
    { unfold user. cbn [fst snd]. now destruct o. }
    destruct (f (c, i, o)); cbn [negb flat_map fst snd].
    - rewrite returned_app, cnt_app, woken_count, E. lia.
    - rewrite num_cons. lia.
  Qed.

  Lemma one_count : forall (e : event) id, cnt id (returned [e]) = match e with Return i _ => if i =? id then 1 else 0 | _ => 0 end.
  Proof.
    intros e id. destruct e; cbn [returned flat_map app]; rewrite ?cnt_cons; cbn [cnt count_occ]; try reflexivity.
    destruct (Nat.eq_dec id0 id) as [->|N]; [rewrite Nat.eqb_refl|apply Nat.eqb_neq in N; rewrite N]; reflexivity.
  Qed.
  Lemma cons_count : forall (e : event) l id, cnt id (returned (e :: l)) =
    match e with Return i _ => if i =? id then 1 else 0 | _ => 0 end + cnt id (returned l).
  Proof. intros. rewrite <- one_count. change (e :: l) with ([e] ++ l). now rewrite returned_app, cnt_app. Qed.
  Lemma user_eq : forall id c i o, (if user id (c, i, o) then 1 else 0) = match o with User => if i =? id then 1 else 0 | _ => 0 end.
  Proof. intros. unfold user. cbn [fst snd]. now destruct o. Qed.
  Lemma local_eq : forall id o i (m : M), (if local id (o, i, m) then 1 else 0) = match o with Local => if i =? id then 1 else 0 | _ => 0 end.
  Proof. intros. unfold local. cbn [fst snd]. now destruct o. Qed.
  Lemma held_eq : forall id o i (k : K), held_local id (Some (o, i, k)) = match o with Local => if i =? id then 1 else 0 | _ => 0 end.
  Proof. reflexivity. Qed.

  Lemma W_keep : forall tr s out s', W tr s -> calls s' = calls s ->
    (forall j, waits_for (tr ++ out) s' j <= waits_for tr s j) -> W (tr ++ out) s'.
  Proof.
    intros tr s out s' IW C L j. destruct (IW j) as [I1 I2]. specialize (L j). rewrite C. split; [lia|].
    intros X. specialize (I2 X). lia.
  Qed.
  Lemma W_new : forall tr s out s' id, W tr s -> ~ In id (calls s) -> calls s' = id :: calls s ->
    (forall j, waits_for (tr ++ out) s' j <= waits_for tr s j + if id =? j then 1 else 0) -> W (tr ++ out) s'.
  Proof.
    intros tr s out s' id IW N C L j. destruct (IW j) as [I1 I2]. specialize (L j). rewrite C.
    destruct (Nat.eqb_spec id j) as [->|Ne].
    - specialize (I2 N). split; [lia|]. intros X. elim X. now left.
    - split; [lia|]. intros X. assert (~ In j (calls s)) by (intros Y; apply X; now right). specialize (I2 H). lia.
  Qed.

  Lemma W_step : forall tr s out s', W tr s -> step s out s' -> W (tr ++ out) s'.
  Proof.
    intros tr s out s' IW St1.
    destruct St1; first [eapply W_new; [exact IW|eassumption|reflexivity|]|eapply W_keep; [exact IW|reflexivity|]]; intros j;
      unfold waits_for; cs; rewrite ?H, ?H0, ?returned_app, ?cnt_app, ?cons_count, ?told_count, ?woken_count, ?num_app, ?num_cons, ?num_nil, ?user_eq, ?local_eq, ?held_eq;
      cbn [returned flat_map app cnt count_occ held_local]; try lia.
    - pose proof (register_user c id User (pending s) j). cbn beta iota in *. lia.
    - pose proof (register_user c id Nobody (pending s) j). cbn beta iota in *. lia.
    - pose proof (register_user c' id (Forward c) (pending s) j). cbn beta iota in *. lia.
    - pose proof (failed_count (on_conn c) (pending s) j). lia.
    - pose proof (failed_count (on_conn c) (pending s) j). lia.
    - pose proof (num_filter _ (user j) (fun e => negb (src (fst (fst e)) =? n)) (pending s)). lia.
    - pose proof (num_filter _ (user j) (fun e => negb (src (fst (fst e)) =? home)) (pending s)).
      destruct (holder s) as [[[o i] k]|]; rewrite ?cons_count; cbn [returned flat_map app cnt count_occ]; lia.
    - pose proof (num_filter _ (user j) (fun e => negb (src (fst (fst e)) =? home)) (pending s)). lia.
  Qed.

  Lemma returned_once : forall tr s, run tr s -> NoDup (returned tr) /\ forall id, In id (returned tr) -> In id (calls s).
  Proof.
    intros tr s R1. assert (G : W tr s).
    { induction R1; [|eapply W_step; eauto]. intros j. split; [cbn; lia|reflexivity]. }
    split.
    - apply NoDup_cnt. intros id. destruct (G id) as [X _]. unfold waits_for in X. lia.
    - intros id X. destruct (in_dec Nat.eq_dec id (calls s)) as [Y|Y]; [exact Y|].
      destruct (G id) as [_ Z]. specialize (Z Y). apply cnt_some in X. unfold waits_for in Z. lia.
  Qed.
  Lemma In_returned : forall tr id, In id (returned tr) <-> exists o, In (Return id o) tr.
  Proof.
    intros. unfold returned. rewrite in_flat_map. split.
    - intros ([] & X & Y); try contradiction. destruct Y as [<-|[]]. eauto.
    - intros [o X]. eexists. split; [exact X|]. now left.
  Qed.

  Lemma return_invoked : forall tr s, run tr s -> forall t1 id o t2,
    tr = t1 ++ Return id o :: t2 -> exists m, In (Invoke id m) t1.
  Proof.
    induction 1 as [|tr s out s' R1 IH St1]; intros t1 i o t2 E; [destruct t1; discriminate|].
    apply split_app in E. destruct E as [(t2' & -> & E)|(o1 & E & ->)]; [eauto|].
    destruct (returned_once _ _ (run_step _ _ _ _ _ _ _ _ _ _ _ _ _ _ R1 St1)) as [_ G].
    assert (X : In i (calls s')).
    { apply G, In_returned. exists o. apply in_or_app. right. rewrite E. apply in_or_app. right. now left. }
    assert (Old : In i (calls s) -> exists m, In (Invoke i m) (tr ++ o1)).
    { intros Y. apply (t_calls _ _ (run_T _ _ R1)), In_invoked in Y. destruct Y as [m Y]. exists m. apply in_or_app. auto. }
    destruct St1; cbn [LinearModel.calls] in X; auto; destruct X as [<-|X]; auto.
    all: destruct o1 as [|e o1]; cbn [app] in E; [discriminate|]; injection E as <- E; exists m; apply in_or_app; right; now left.
  Qed.

  Variable rank : nat -> nat.
  Hypothesis towards_home : forall c, src c <> home -> rank (dst c) < rank (src c).

  Record Q (tr : list event) (s : st) : Prop := {
    q_closed : closed s = [];
    q_dead : dead s = [];
    q_bal : forall c id, num (at_conn c id) (wire s) + num (at_conn c id) (tasks s) + num (from_conn c id) (queue s) +
      held c id (holder s) + num (for_conn c id) (pending s) + num (at_conn c id) (replies s) =
      num (at_conn c id) (pending s);
    q_known : forall c id o, In (c, id, o) (pending s) -> In id (calls s);
    q_fwd : forall c' id c, In (c', id, Forward c) (pending s) -> src c' = dst c /\ dst c <> home;
    q_rank : forall c id m c1 o, In (c, id, m) (wire s) \/ In (c, id, m) (tasks s) -> In (c1, id, o) (pending s) ->
      src c1 = home \/ rank (dst c) < rank (src c1);
    q_some : forall c id x, In (c, id, x) (replies s) -> exists r, x = Some r;
    q_ret : forall id, In id (invoked tr) -> (exists o, In (Return id o) tr) \/ (exists c, In (c, id, User) (pending s)) \/
      (exists m, In (Local, id, m) (queue s)) \/ exists k, holder s = Some (Local, id, k);
    q_exec : forall id, In id (invoked tr) -> (exists r, In (Done id r) tr) \/ In id (ids (wire s)) \/ In id (ids (tasks s)) \/
      In id (ids (queue s)) \/ exists o k, holder s = Some (o, id, k) }.

  Lemma Q_init : Q [] (start_state St M K R initial).
  Proof. constructor; cbn; intros; try tauto; auto. Qed.

  Lemma no_key : forall c id l, (forall o, ~ In (c, id, o) l) -> num (at_conn c id) l = 0 /\
    register c id User l = l ++ [(c, id, User)] /\ forall c0, register c id (Forward c0) l = l ++ [(c, id, Forward c0)].
  Proof.
    intros c id l N.
    assert (F : filter (fun e => negb (key c id e)) l = l).
    { clear - N. induction l as [|[[c1 i] o] l IH]; [reflexivity|]. cbn [filter]. unfold key at 1. cbn [fst snd].
      destruct (Nat.eqb_spec c1 c), (Nat.eqb_spec i id); cbn [andb negb]; subst;
        try (f_equal; apply IH; intros o' X; apply (N o'); now right).
      elim (N o). now left. }
    split; [|split].
    - destruct (num (at_conn c id) l) eqn:E; [reflexivity|]. exfalso.
      destruct (num_pos _ (at_conn c id) l) as ([[c1 i] o] & X & Y); [lia|]. unfold at_conn in Y. cbn [fst snd] in Y.
      apply andb_true_iff in Y. destruct Y as [Y1 Y2]. apply Nat.eqb_eq in Y1, Y2. subst. eapply N; eauto.
    - unfold register. now rewrite F.
    - intros c0. unfold register. now rewrite F.
  Qed.

  Lemma at_conn_same : forall B c id (x : B), at_conn c id (c, id, x) = true.
  Proof. intros. unfold at_conn. cbn [fst snd]. now rewrite !Nat.eqb_refl. Qed.

  Ltac nums := rewrite ?num_app, ?num_cons, ?num_nil; unfold at_conn, from_conn, for_conn, held; cbn [fst snd].

  Lemma ids_mid : forall A B (l1 l2 : list (A * nat * B)) a id b i, In i (ids (l1 ++ (a, id, b) :: l2)) ->
    i = id \/ In i (ids (l1 ++ l2)).
  Proof.
    intros A B l1 l2 a id b i X. rewrite ids_app in *. apply in_app_iff in X. rewrite in_app_iff.
    destruct X as [X|[X|X]]; auto.
  Qed.

  Lemma Q_step : forall tr s out s', T tr s -> Q tr s -> step s out s' -> ~ In Trouble out -> Q (tr ++ out) s'.
  Proof.
    intros tr s out s' IT IQ St1 NT. destruct St1; try (elim NT; cbn [In]; tauto).
    - (* invoke *)
      assert (NK : forall c0 o, ~ In (c0, id, o) (pending s)) by (intros c0 o X; apply H; eapply q_known; eauto).
      destruct (no_key c id (pending s)) as (N0 & Rg & _); [auto|].
      assert (NW : forall c0 x, ~ In (c0, id, x) (wire s) /\ ~ In (c0, id, x) (tasks s)).
      { intros c0 x. split; intros X; apply H, (t_calls _ _ IT), In_invoked; exists x; [eapply t_wire|eapply t_tasks]; eauto. }
      destruct IQ. constructor; cs; rewrite ?Rg; auto.
      + intros c0 i. specialize (q_bal0 c0 i). nums. unfold at_conn, from_conn, for_conn, held in q_bal0. lia.
      + intros c0 i o X. apply in_app_iff in X. destruct X as [X|[X|[]]]; [right; eauto|]. injection X as _ -> _. now left.
      + intros c0 i c1 X. apply in_app_iff in X. destruct X as [X|[X|[]]]; [eauto|discriminate].
      + intros c0 i x c1 o W P. apply in_app_iff in P. destruct P as [P|[P|[]]].
        * destruct W as [W|W]; [|eauto]. apply in_app_iff in W. destruct W as [W|[W|[]]]; [eauto|].
          injection W as _ -> _. elim (NK _ _ P).
        * injection P as -> -> _. destruct W as [W|W]; [|elim (proj2 (NW _ _) W)].
          apply in_app_iff in W. destruct W as [W|[W|[]]]; [elim (proj1 (NW _ _) W)|]. injection W as -> _.
          destruct (Nat.eq_dec (src c0) home); [auto|right; now apply towards_home].
      + intros i X. rewrite invoked_app in X. apply in_app_iff in X. destruct X as [X|[<-|[]]].
        * destruct (q_ret0 i X) as [[o Y]|[[c0 Y]|Y]]; [left; exists o; apply in_or_app; auto| |auto].
          right; left. exists c0. apply in_or_app. auto.
        * right; left. exists c. apply in_or_app. right. now left.
      + intros i X. rewrite invoked_app in X. rewrite ids_app. apply in_app_iff in X. destruct X as [X|[<-|[]]].
        * destruct (q_exec0 i X) as [[r Y]|[Y|Y]]; [left; exists r; apply in_or_app; auto| |auto].
          right; left. apply in_or_app. auto.
        * right; left. apply in_or_app. right. now left.
    - (* invoke local *)
      destruct IQ. constructor; cs; auto.
      + intros c0 i. specialize (q_bal0 c0 i). nums. unfold at_conn, from_conn, for_conn, held in q_bal0. lia.
      + intros c0 i o X. right. eauto.
      + intros i X. rewrite invoked_app in X. apply in_app_iff in X. destruct X as [X|[<-|[]]].
        * destruct (q_ret0 i X) as [[o Y]|[Y|[[x Y]|Y]]]; [left; exists o; apply in_or_app; auto|auto| |auto].
          right; right; left. exists x. apply in_or_app. auto.
        * right; right; left. exists m. apply in_or_app. right. now left.
      + intros i X. rewrite invoked_app in X. rewrite ids_app. apply in_app_iff in X. destruct X as [X|[<-|[]]].
        * destruct (q_exec0 i X) as [[r Y]|[Y|[Y|[Y|Y]]]]; [left; exists r; apply in_or_app; auto|auto|auto| |auto].
          do 3 right; left. apply in_or_app. auto.
        * do 3 right; left. apply in_or_app. right. now left.
    - (* tell local *)
      destruct IQ. constructor; cs; auto.
      + intros c0 i. specialize (q_bal0 c0 i). nums. unfold at_conn, from_conn, for_conn, held in q_bal0. lia.
      + intros c0 i o X. right. eauto.
      + intros i X. rewrite invoked_app in X. apply in_app_iff in X. destruct X as [X|[<-|[]]].
        * destruct (q_ret0 i X) as [[o Y]|[Y|[[x Y]|Y]]]; [left; exists o; apply in_or_app; auto|auto| |auto].
          right; right; left. exists x. apply in_or_app. auto.
        * left. exists NoAnswer. apply in_or_app. right. right. now left.
      + intros i X. rewrite invoked_app in X. rewrite ids_app. apply in_app_iff in X. destruct X as [X|[<-|[]]].
        * destruct (q_exec0 i X) as [[r Y]|[Y|[Y|[Y|Y]]]]; [left; exists r; apply in_or_app; auto|auto|auto| |auto].
          do 3 right; left. apply in_or_app. auto.
        * do 3 right; left. apply in_or_app. right. now left.
    - (* give up *)
      assert (Sub : forall c0 i o, In (c0, i, o) (p1 ++ (c, id, Nobody) :: p2) ->
        In (c0, i, o) (pending s) \/ (c0 = c /\ i = id /\ o = Nobody)).
      { intros c0 i o X. rewrite H. rewrite in_app_iff in *. cbn [In] in *. destruct X as [X|[X|X]]; auto.
        injection X as <- <- <-. auto. }
      destruct IQ. constructor; cs; auto.
      + intros c0 i. specialize (q_bal0 c0 i). rewrite H in q_bal0. revert q_bal0. nums. lia.
      + intros c0 i o X. destruct (Sub _ _ _ X) as [Y|(-> & -> & ->)]; [eauto|]. apply (q_known0 c id User). rewrite H.
        apply in_or_app. right. now left.
      + intros c0 i c1 X. destruct (Sub _ _ _ X) as [Y|(_ & _ & Y)]; [eauto|discriminate].
      + intros c0 i x c1 o W X. destruct (Sub _ _ _ X) as [Y|(-> & -> & ->)]; [eauto|].
        eapply (q_rank0 _ _ _ c User); eauto. rewrite H. apply in_or_app. right. now left.
      + intros i X. rewrite invoked_app in X. cbn [invoked flat_map app] in X. rewrite app_nil_r in X.
        destruct (q_ret0 i X) as [[o Y]|[[c0 Y]|Y]]; [left; exists o; apply in_or_app; auto| |auto].
        rewrite H in Y. apply in_app_iff in Y. destruct Y as [Y|[Y|Y]].
        * right; left. exists c0. apply in_or_app. auto.
        * injection Y as _ <-. left. exists NoAnswer. apply in_or_app. right. now left.
        * right; left. exists c0. apply in_or_app. right. now right.
      + intros i X. rewrite invoked_app in X. cbn [invoked flat_map app] in X. rewrite app_nil_r in X.
        destruct (q_exec0 i X) as [[r Y]|Y]; [left; exists r; apply in_or_app; auto|auto].
    - (* receive *)
      rewrite app_nil_r. destruct IQ. constructor; cs; auto.
      + intros c0 i. specialize (q_bal0 c0 i). rewrite H in q_bal0. revert q_bal0. nums. lia.
      + intros c0 i x c1 o W P. apply (q_rank0 c0 i x c1 o); auto. rewrite H.
        destruct W as [W|W]; apply in_app_iff in W; rewrite in_app_iff; cbn [In]; [tauto|].
        destruct W as [W|[W|[]]]; auto.
      + intros i X. destruct (q_exec0 i X) as [Y|[Y|[Y|Y]]]; [auto| | |auto].
        * rewrite H in Y. apply ids_mid in Y. destruct Y as [->|Y]; [|auto].
          right; right; left. rewrite ids_app. apply in_or_app. right. now left.
        * right; right; left. rewrite ids_app. apply in_or_app. auto.
    - (* enter *)
      rewrite app_nil_r. destruct IQ. constructor; cs; auto.
      + intros c0 i. specialize (q_bal0 c0 i). rewrite H in q_bal0. revert q_bal0. nums. lia.
      + intros c0 i x c1 o W P. apply (q_rank0 c0 i x c1 o); auto. rewrite H.
        destruct W as [W|W]; auto. apply in_app_iff in W; rewrite in_app_iff; cbn [In]; tauto.
      + intros i X. destruct (q_ret0 i X) as [Y|[Y|[[x Y]|Y]]]; [auto|auto| |auto].
        right; right; left. exists x. apply in_or_app. auto.
      + intros i X. destruct (q_exec0 i X) as [Y|[Y|[Y|[Y|Y]]]]; [auto|auto| | |auto].
        * rewrite H in Y. apply ids_mid in Y. destruct Y as [->|Y]; [|auto].
          do 3 right; left. rewrite ids_app. apply in_or_app. right. now left.
        * do 3 right; left. rewrite ids_app. apply in_or_app. auto.
    - (* forward *)
      rewrite app_nil_r.
      assert (Here : In (c, id, m) (tasks s)) by (rewrite H; apply in_or_app; right; now left).
      assert (NK : forall o, ~ In (c', id, o) (pending s)).
      { intros o X. destruct (q_rank _ _ IQ c id m c' o (or_intror Here) X) as [Y|Y]; rewrite H1 in Y; [congruence|lia]. }
      destruct (no_key c' id (pending s) NK) as (N0 & _ & Rg). specialize (Rg c).
      pose proof (t_one _ _ IT id) as One.
      assert (Only : forall c0 x, In (c0, id, x) (wire s) \/ In (c0, id, x) (t1 ++ t2) -> False).
      { intros c0 x W. rewrite H, ids_app, cnt_app in One. unfold ids at 3 in One. cbn [map snd fst] in One.
        rewrite cnt_cons in One. destruct (Nat.eq_dec id id); [|contradiction].
        destruct W as [W|W]; [apply in_ids, cnt_some in W; lia|].
        apply in_app_iff in W. destruct W as [W|W]; apply in_ids, cnt_some in W; unfold ids in *; lia. }
      destruct IQ. constructor; cs; rewrite ?Rg; auto.
      + intros c0 i. specialize (q_bal0 c0 i). rewrite H in q_bal0. revert q_bal0. nums. lia.
      + intros c0 i o X. apply in_app_iff in X. destruct X as [X|[X|[]]]; [eauto|]. injection X as _ <- _.
        apply (t_calls _ _ IT), In_invoked. exists m. eapply t_tasks; eauto.
      + intros c0 i c1 X. apply in_app_iff in X. destruct X as [X|[X|[]]]; [eauto|]. injection X as <- _ <-. auto.
      + assert (Rk : rank (dst c') < rank (dst c)).
        { rewrite <- H1. apply towards_home. congruence. }
        intros c0 i x c1 o W P. apply in_app_iff in P. destruct P as [P|[P|[]]].
        * destruct W as [W|W].
          -- apply in_app_iff in W. destruct W as [W|[W|[]]]; [eauto|]. injection W as <- <- _.
             destruct (q_rank0 c id m c1 o (or_intror Here) P); [auto|right; lia].
          -- apply (q_rank0 c0 i x c1 o); auto. right. rewrite H. apply in_app_iff in W. rewrite in_app_iff. cbn [In]. tauto.
        * injection P as <- <- <-. right. rewrite H1. destruct W as [W|W].
          -- apply in_app_iff in W. destruct W as [W|[W|[]]]; [exfalso; eapply Only; eauto|]. injection W as <- _. exact Rk.
          -- exfalso. eapply Only; eauto.
      + intros i X. destruct (q_ret0 i X) as [Y|[[c0 Y]|Y]]; [auto| |auto].
        right; left. exists c0. apply in_or_app. auto.
      + intros i X. destruct (q_exec0 i X) as [Y|[Y|[Y|Y]]]; [auto| | |auto].
        * right; left. rewrite ids_app. apply in_or_app. auto.
        * rewrite H in Y. apply ids_mid in Y. destruct Y as [->|Y]; [|auto].
          right; left. rewrite ids_app. apply in_or_app. right. now left.
    - (* acquire *)
      destruct IQ. constructor; cs; auto.
      + intros c0 i. specialize (q_bal0 c0 i). rewrite H, H0 in q_bal0. revert q_bal0. nums. destruct o; lia.
      + intros i X. rewrite invoked_app in X. cbn [invoked flat_map app] in X. rewrite app_nil_r in X.
        destruct (q_ret0 i X) as [[o' Y]|[Y|[[x Y]|[k Y]]]]; [left; exists o'; apply in_or_app; auto|auto| |congruence].
        rewrite H in Y. destruct Y as [Y|Y]; [injection Y as -> -> _; eauto|eauto].
      + intros i X. rewrite invoked_app in X. cbn [invoked flat_map app] in X. rewrite app_nil_r in X.
        destruct (q_exec0 i X) as [[r Y]|[Y|[Y|[Y|(o' & k & Y)]]]]; [left; exists r; apply in_or_app; auto|auto|auto| |congruence].
        rewrite H in Y. destruct Y as [<-|Y]; [|auto]. do 4 right. eauto.
    - (* work *)
      rewrite app_nil_r. destruct IQ. constructor; cs; auto.
      + intros c0 i. specialize (q_bal0 c0 i). rewrite H in q_bal0. revert q_bal0. nums. lia.
      + intros i X. destruct (q_ret0 i X) as [Y|[Y|[Y|[k1 Y]]]]; [auto|auto|auto|].
        do 3 right. rewrite H in Y. injection Y as -> -> _. eauto.
      + intros i X. destruct (q_exec0 i X) as [Y|[Y|[Y|[Y|(o1 & k1 & Y)]]]]; [auto|auto|auto|auto|].
        do 4 right. rewrite H in Y. injection Y as -> -> _. eauto.
    - (* done *)
      assert (Cl : forall c, is_closed s c = false) by (intros c; unfold LinearModel.is_closed; now rewrite (q_closed _ _ IQ)).
      assert (RO : only_returns (told o id (Some r))) by ret.
      destruct (returns_nothing _ RO) as [NI _].
      assert (Ei : invoked (tr ++ Done id r :: told o id (Some r)) = invoked tr).
      { rewrite invoked_app. change (invoked (Done id r :: told o id (Some r))) with (invoked (told o id (Some r))).
        now rewrite NI, app_nil_r. }
      destruct IQ. constructor; cs; auto; rewrite ?Ei.
      + intros c0 i. specialize (q_bal0 c0 i). rewrite H in q_bal0. revert q_bal0.
        destruct o; cbn [LinearModel.sent]; unfold LinearModel.reply_on; rewrite ?Cl, ?app_nil_r; nums; lia.
      + intros c0 i x X. apply in_app_iff in X. destruct X as [X|X]; [eauto|]. destruct o; try contradiction.
        cbn [LinearModel.sent] in X. unfold LinearModel.reply_on in X. rewrite Cl in X. destruct X as [X|[]].
        injection X as _ _ <-. eauto.
      + intros i X. destruct (q_ret0 i X) as [[o' Y]|[Y|[Y|[k1 Y]]]]; [left; exists o'; apply in_or_app; auto|auto|auto|].
        rewrite H in Y. injection Y as -> -> _. left. exists (Answer r). apply in_or_app. right. right. now left.
      + intros i X. destruct (q_exec0 i X) as [[r' Y]|[Y|[Y|[Y|(o1 & k1 & Y)]]]]; [left; exists r'; apply in_or_app; auto|auto|auto|auto|].
        rewrite H in Y. injection Y as _ -> _. left. exists r. apply in_or_app. right. now left.
    - (* answer *)
      assert (Cl : forall c, is_closed s c = false) by (intros c0; unfold LinearModel.is_closed; now rewrite (q_closed _ _ IQ)).
      assert (RO : only_returns (woken id o x)) by ret.
      destruct (returns_nothing _ RO) as [NI _].
      assert (Ei : invoked (tr ++ woken id o x) = invoked tr) by (now rewrite invoked_app, NI, app_nil_r).
      assert (Hx : exists r, x = Some r) by (apply (q_some _ _ IQ c id); rewrite H; apply in_or_app; right; now left).
      assert (Sub : forall e, In e (p1 ++ p2) -> In e (pending s)).
      { intros e X. rewrite H0. rewrite in_app_iff in *. cbn [In]. tauto. }
      destruct IQ. constructor; cs; auto; rewrite ?Ei.
      + intros c0 i. specialize (q_bal0 c0 i). rewrite H, H0 in q_bal0. revert q_bal0.
        destruct o; cbn [LinearModel.passed]; unfold LinearModel.reply_on; rewrite ?Cl, ?app_nil_r; nums; lia.
      + intros; eapply q_known0; apply Sub; eauto.
      + intros; eapply q_fwd0; apply Sub; eauto.
      + intros c0 i y c1 o1 W P. eapply q_rank0; eauto.
      + intros c0 i y X. rewrite !in_app_iff in X. destruct X as [X|[X|X]].
        * eapply q_some0. rewrite H. apply in_or_app. left. exact X.
        * eapply q_some0. rewrite H. apply in_or_app. right. right. exact X.
        * destruct o; try contradiction. cbn [LinearModel.passed] in X. unfold LinearModel.reply_on in X. rewrite Cl in X.
          destruct X as [X|[]]. injection X as _ _ <-. exact Hx.
      + intros i X. destruct (q_ret0 i X) as [[o' Y]|[[c0 Y]|Y]]; [left; exists o'; apply in_or_app; auto| |auto].
        rewrite H0 in Y. apply in_app_iff in Y. destruct Y as [Y|[Y|Y]].
        * right; left. exists c0. apply in_or_app. auto.
        * injection Y as _ -> ->. left. eexists. apply in_or_app. right. now left.
        * right; left. exists c0. apply in_or_app. auto.
      + intros i X. destruct (q_exec0 i X) as [[r' Y]|Y]; [left; exists r'; apply in_or_app; auto|auto].
  Qed.

  Lemma run_Q : forall tr s, run tr s -> ~ In Trouble tr -> Q tr s.
  Proof.
    induction 1 as [|tr s out s' R1 IH St1]; intros NT; [apply Q_init|].
    eapply Q_step; eauto.
    - now apply run_T.
    - apply IH. intros X. apply NT, in_or_app. auto.
    - intros X. apply NT, in_or_app. auto.
  Qed.

  Hypothesis routes : forall n, n <> home -> exists c, src c = n.

  Definition at_rest (s : st) : Prop := forall out s', step s out s' ->
    In Trouble out \/ (exists id m, In (Invoke id m) out) \/ (exists id, In (Return id NoAnswer) out).

  Lemma rest_empty : forall tr s, Q tr s -> at_rest s ->
    wire s = [] /\ tasks s = [] /\ queue s = [] /\ holder s = None /\ replies s = [] /\ pending s = [].
  Proof.
    intros tr s IQ Rest.
    assert (Nil : ~ (In Trouble (@nil event) \/ (exists id m, In (Invoke id m) (@nil event)) \/ (exists id, In (Return id NoAnswer) (@nil event)))).
    { intros [X|[(? & ? & X)|(? & X)]]; exact X. }
    assert (Cl : forall c, is_closed s c = false) by (intros c0; unfold LinearModel.is_closed; now rewrite (q_closed _ _ IQ)).
    assert (Hw : wire s = []).
    { destruct (wire s) as [|[[c id] m] w] eqn:E; [reflexivity|]. exfalso. apply Nil.
      eapply Rest. eapply (s_receive _ _ _ _ _ _ _ _ _ _ s [] c id m w); [exact E|]. rewrite (q_dead _ _ IQ). tauto. }
    assert (Ht : tasks s = []).
    { destruct (tasks s) as [|[[c id] m] w] eqn:E; [reflexivity|]. exfalso. apply Nil.
      destruct (Nat.eq_dec (dst c) home) as [Hd|Hd].
      - eapply Rest. eapply (s_enter _ _ _ _ _ _ _ _ _ _ s [] c id m w); [exact E|exact Hd].
      - destruct (routes _ Hd) as [c' Hc]. eapply Rest.
        eapply (s_forward _ _ _ _ _ _ _ _ _ _ s [] c id m w c'); [exact E|exact Hd|exact Hc|apply Cl]. }
    assert (Hh : holder s = None).
    { destruct (holder s) as [[[o id] k]|] eqn:E; [|reflexivity]. exfalso.
      destruct (resume k (actor s)) as [a [k'|r]] eqn:Er.
      - apply Nil. eapply Rest. eapply s_work; eauto.
      - destruct (Rest _ _ (s_done _ _ _ _ _ _ _ _ _ _ s o id k r a E Er)) as [[X|X]|[(i & m & [X|X])|(i & [X|X])]]; try discriminate.
        + destruct o; cbn [LinearModel.told In] in X; try contradiction. destruct X as [X|[]]; discriminate.
        + destruct o; cbn [LinearModel.told In] in X; try contradiction. destruct X as [X|[]]; discriminate.
        + destruct o; cbn [LinearModel.told In] in X; try contradiction. destruct X as [X|[]]; discriminate. }
    assert (Hq : queue s = []).
    { destruct (queue s) as [|[[o id] m] q] eqn:E; [reflexivity|]. exfalso.
      destruct (Rest _ _ (s_acquire _ _ _ _ _ _ _ _ _ _ s o id m q E Hh)) as [[X|[]]|[(i & x & [X|[]])|(i & [X|[]])]]; discriminate. }
    assert (Hr : replies s = []).
    { destruct (replies s) as [|[[c id] x] rs] eqn:E; [reflexivity|]. exfalso.
      assert (P : 0 < num (at_conn c id) (pending s)).
      { rewrite <- (q_bal _ _ IQ c id). rewrite E, num_cons, at_conn_same. lia. }
      apply num_pos in P. destruct P as ([[c1 i1] o] & P & F). unfold at_conn in F. cbn [fst snd] in F.
      apply andb_true_iff in F. destruct F as [F1 F2]. apply Nat.eqb_eq in F1, F2. subst c1 i1.
      apply in_split in P. destruct P as (p1 & p2 & P).
      destruct (q_some _ _ IQ c id x) as [r ->]; [rewrite E; now left|].
      destruct (Rest _ _ (s_answer _ _ _ _ _ _ _ _ _ _ s [] c id (Some r) rs p1 o p2 E P)) as [X|[(i & m & X)|(i & X)]].
      - destruct o; cbn [LinearModel.woken In] in X; try contradiction. destruct X as [X|[]]; discriminate.
      - destruct o; cbn [LinearModel.woken In] in X; try contradiction. destruct X as [X|[]]; discriminate.
      - destruct o; cbn [LinearModel.woken In] in X; try contradiction. destruct X as [X|[]]; discriminate. }
    repeat split; auto.
    (* every waiting future has a cause closer to the actor *)
    assert (G : forall n c id o, rank (dst c) < n -> ~ In (c, id, o) (pending s)).
    { induction n as [|n IH]; intros c id o L X; [lia|].
      assert (P : 0 < num (at_conn c id) (pending s)) by (eapply num_in; [exact X|apply at_conn_same]).
      rewrite <- (q_bal _ _ IQ c id), Hw, Ht, Hq, Hh, Hr in P. rewrite !num_nil in P. cbn [held] in P.
      assert (P' : 0 < num (for_conn c id) (pending s)) by lia.
      apply num_pos in P'. destruct P' as ([[c1 i1] o1] & P' & F). unfold for_conn in F. cbn [fst snd] in F.
      destruct o1 as [|c2|]; try discriminate. apply andb_true_iff in F. destruct F as [F1 F2].
      apply Nat.eqb_eq in F1, F2. subst c2 i1.
      destruct (q_fwd _ _ IQ _ _ _ P') as [E1 E2].
      apply (IH c1 id (Forward c)); [|exact P'].
      assert (rank (dst c1) < rank (src c1)) by (apply towards_home; congruence). rewrite E1 in *. lia. }
    destruct (pending s) as [|[[c id] o] ps] eqn:E; [reflexivity|]. exfalso.
    apply (G (S (rank (dst c))) c id o); [lia|now left].
  Qed.

  Lemma all_answered : forall tr s, run tr s -> ~ In Trouble tr -> at_rest s -> forall id m,
    In (Invoke id m) tr -> (exists r, In (Done id r) tr) /\ exists o, In (Return id o) tr.
  Proof.
    intros tr s R1 NT Rest id m X.
    pose proof (run_Q _ _ R1 NT) as IQ.
    destruct (rest_empty _ _ IQ Rest) as (Hw & Ht & Hq & Hh & Hr & Hp).
    assert (Y : In id (invoked tr)) by (apply In_invoked; eauto). split.
    - destruct (q_exec _ _ IQ id Y) as [Z|[Z|[Z|[Z|(o & k & Z)]]]]; [exact Z| | | |congruence].
      + now rewrite Hw in Z.
      + now rewrite Ht in Z.
      + now rewrite Hq in Z.
    - destruct (q_ret _ _ IQ id Y) as [Z|[[c Z]|[[x Z]|[k Z]]]]; [exact Z| | |congruence].
      + now rewrite Hp in Z.
      + now rewrite Hq in Z.
  Qed.

  (** *** It can always finish *)
  Inductive halts : K -> St -> Prop :=
  | halts_now : forall k a a' r, resume k a = (a', inr r) -> halts k a
  | halts_later : forall k a a' k', resume k a = (a', inl k') -> halts k' a' -> halts k a.
  Hypothesis terminates : forall m a, halts (start m) a.

  Definition quiet (out : list event) : Prop := forall e, In e out ->
    match e with Begin _ | Done _ _ | Return _ (Answer _) => True | _ => False end.

  Lemma quiet_app : forall o o', quiet o -> quiet o' -> quiet (o ++ o').
  Proof. intros o o' A B e X. apply in_app_iff in X. destruct X as [X|X]; [exact (A e X)|exact (B e X)]. Qed.

  Definition cost (l : list (nat * nat * M)) (n : nat) : nat :=
    list_sum (map (fun e => 5 * rank (dst (fst (fst e))) + n) l).
  Definition measure (s : st) : nat :=
    cost (wire s) 5 + cost (tasks s) 4 + 3 * length (queue s) +
    match holder s with Some _ => 2 | None => 0 end + length (replies s) + length (pending s).
  Lemma cost_app : forall l l' n, cost (l ++ l') n = cost l n + cost l' n.
  Proof. intros. unfold cost. now rewrite map_app, list_sum_app. Qed.
  Lemma cost_one : forall c id m n, cost [(c, id, m)] n = 5 * rank (dst c) + n.
  Proof. intros. unfold cost. cbn [map list_sum fold_right fst]. lia. Qed.
  Lemma cost_cons : forall e l n, cost (e :: l) n = 5 * rank (dst (fst (fst e))) + n + cost l n.
  Proof. reflexivity. Qed.

  Definition holder_halts (s : st) : Prop := forall o id k, holder s = Some (o, id, k) -> halts k (actor s).

  Lemma run_halts : forall tr s, run tr s -> holder_halts s.
  Proof.
    induction 1 as [|tr s out s' R1 IH St1]; [intros o id k X; discriminate|].
    destruct St1; try exact IH; intros o' id' k1 X; cbn [LinearModel.holder LinearModel.actor] in *; try discriminate; eauto.
    - injection X as _ _ <-. apply terminates.
    - injection X as _ _ <-. specialize (IH _ _ _ H). inversion IH; subst; congruence.
  Qed.

  Definition empty (s : st) : Prop :=
    wire s = [] /\ tasks s = [] /\ queue s = [] /\ holder s = None /\ replies s = [] /\ pending s = [].

  Lemma empty_rest : forall s, empty s -> at_rest s.
  Proof.
    intros s (Hw & Ht & Hq & Hh & Hr & Hp) out s' St1. destruct St1; cbn [In]; eauto 6;
      try (rewrite Hp in *); try (rewrite Ht in *); try (rewrite Hw in *); try (rewrite Hq in *); try (rewrite Hr in *);
      try (match goal with E : [] = ?l ++ _ :: _ |- _ => destruct l; discriminate end); try congruence.
  Qed.

  (** One step forward; [work] may need many. *)
  Lemma forward_step : forall tr s, run tr s -> ~ In Trouble tr -> empty s \/
    exists out s', run (tr ++ out) s' /\ quiet out /\ measure s' < measure s.
  Proof.
    intros tr s R1 NT. pose proof (run_Q _ _ R1 NT) as IQ.
    assert (Cl : forall c, is_closed s c = false) by (intros c0; unfold LinearModel.is_closed; now rewrite (q_closed _ _ IQ)).
    assert (Qn : quiet []) by (intros e []).
    destruct (wire s) as [|[[c id] m] w] eqn:Ew.
    2:{ right. exists []. eexists. split; [eapply run_step; [exact R1|]; eapply (s_receive _ _ _ _ _ _ _ _ _ _ s [] c id m w); [exact Ew|rewrite (q_dead _ _ IQ); tauto]|].
        split; [exact Qn|]. unfold measure. cs. rewrite Ew. cbn [app]. rewrite cost_app, cost_one, cost_cons. cbn [fst]. lia. }
    destruct (tasks s) as [|[[c id] m] w] eqn:Et.
    2:{ right. destruct (Nat.eq_dec (dst c) home) as [Hd|Hd].
        - exists []. eexists. split; [eapply run_step; [exact R1|]; eapply (s_enter _ _ _ _ _ _ _ _ _ _ s [] c id m w); [exact Et|exact Hd]|].
          split; [exact Qn|]. unfold measure. cs. rewrite Et. cbn [app]. rewrite app_length, cost_cons. cbn [fst length]. lia.
        - destruct (routes _ Hd) as [c' Hc]. exists []. eexists.
          split; [eapply run_step; [exact R1|]; eapply (s_forward _ _ _ _ _ _ _ _ _ _ s [] c id m w c'); [exact Et|exact Hd|exact Hc|apply Cl]|].
          split; [exact Qn|]. unfold measure. cs. rewrite Et, Ew. cbn [app]. rewrite cost_one, cost_cons. cbn [fst length].
          assert (rank (dst c') < rank (src c')) by (apply towards_home; congruence). rewrite Hc in *.
          unfold register. rewrite app_length. cbn [length].
          assert (length (filter (fun e => negb (key c' id e)) (pending s)) <= length (pending s)).
          { clear. induction (pending s) as [|e l IH]; [auto|]. cbn [filter]. destruct (negb _); cbn [length]; lia. }
          lia. }
    destruct (holder s) as [[[o id] k]|] eqn:Eh.
    - right. pose proof (run_halts _ _ R1 _ _ _ Eh) as Hk.
      assert (G : forall k a, halts k a -> forall s, run tr s -> holder s = Some (o, id, k) -> actor s = a ->
        exists r s', run (tr ++ Done id r :: told o id (Some r)) s' /\ measure s' < measure s).
      { clear - NT. induction 1 as [k a a' r E|k a a' k' E _ IH]; intros s R1 Eh Ea.
        - exists r. eexists. split; [eapply run_step; [exact R1|]; eapply s_done; [exact Eh|rewrite Ea; exact E]|].
          unfold measure. cs. rewrite Eh, app_length.
          assert (length (sent s o id (Some r)) <= 1).
          { destruct o; cbn [LinearModel.sent]; unfold LinearModel.reply_on; try destruct (is_closed s c); cbn [length]; lia. }
          lia.
        - destruct (IH (mk St M K R (calls s) (wire s) (tasks s) (queue s) (Some (o, id, k')) a' (replies s) (pending s) (closed s) (dead s)))
            as (r & s' & Rr & L).
          + rewrite <- (app_nil_r tr). eapply run_step; [exact R1|]. eapply s_work; [exact Eh|rewrite Ea; exact E].
          + reflexivity.
          + reflexivity.
          + exists r, s'. split; [exact Rr|]. unfold measure in *. cbn [LinearModel.wire LinearModel.tasks LinearModel.queue LinearModel.holder LinearModel.replies LinearModel.pending] in *.
            rewrite Eh. exact L. }
      destruct (G _ _ Hk s R1 Eh eq_refl) as (r & s' & Rr & L). exists (Done id r :: told o id (Some r)), s'.
      split; [exact Rr|]. split; [|exact L]. intros e [<-|X]; [exact I|].
      destruct o; cbn [LinearModel.told In] in X; try contradiction. destruct X as [<-|[]]. exact I.
    - destruct (queue s) as [|[[o id] m] q] eqn:Eq.
      2:{ right. exists [Begin id]. eexists. split; [eapply run_step; [exact R1|]; eapply s_acquire; [exact Eq|exact Eh]|].
          split; [intros e [<-|[]]; exact I|]. unfold measure. cs. rewrite Eq, Eh. cbn [length]. lia. }
      destruct (replies s) as [|[[c id] x] rs] eqn:Er.
      2:{ right.
          assert (P : 0 < num (at_conn c id) (pending s)).
          { rewrite <- (q_bal _ _ IQ c id). rewrite Er, num_cons, at_conn_same. lia. }
          apply num_pos in P. destruct P as ([[c1 i1] o] & P & F). unfold at_conn in F. cbn [fst snd] in F.
          apply andb_true_iff in F. destruct F as [F1 F2]. apply Nat.eqb_eq in F1, F2. subst c1 i1.
          apply in_split in P. destruct P as (p1 & p2 & P).
          destruct (q_some _ _ IQ c id x) as [r ->]; [rewrite Er; now left|].
          exists (woken id o (Some r)). eexists.
          split; [eapply run_step; [exact R1|]; eapply (s_answer _ _ _ _ _ _ _ _ _ _ s [] c id (Some r) rs p1 o p2); [exact Er|exact P]|].
          split.
          - intros e X. destruct o; cbn [LinearModel.woken In] in X; try contradiction. destruct X as [<-|[]]. exact I.
          - unfold measure. cs. rewrite Er, P, !app_length. cbn [length].
            assert (length (passed s id o (Some r)) <= 1).
            { destruct o; cbn [LinearModel.passed]; unfold LinearModel.reply_on; try destruct (is_closed s c0); cbn [length]; lia. }
            lia. }
      left. destruct (pending s) as [|[[c id] o] ps] eqn:Ep; [repeat split; auto|]. exfalso.
      assert (G : forall n c id o, rank (dst c) < n -> ~ In (c, id, o) (pending s)).
      { clear c id o Ep ps. induction n as [|n IH]; intros c id o L X; [lia|].
        assert (P : 0 < num (at_conn c id) (pending s)) by (eapply num_in; [exact X|apply at_conn_same]).
        rewrite <- (q_bal _ _ IQ c id), Ew, Et, Eq, Eh, Er in P. rewrite !num_nil in P. cbn [held] in P.
        assert (P' : 0 < num (for_conn c id) (pending s)) by lia.
        apply num_pos in P'. destruct P' as ([[c1 i1] o1] & P' & F). unfold for_conn in F. cbn [fst snd] in F.
        destruct o1 as [|c2|]; try discriminate. apply andb_true_iff in F. destruct F as [F1 F2].
        apply Nat.eqb_eq in F1, F2. subst c2 i1.
        destruct (q_fwd _ _ IQ _ _ _ P') as [E1 E2].
        apply (IH c1 id (Forward c)); [|exact P'].
        assert (rank (dst c1) < rank (src c1)) by (apply towards_home; congruence). rewrite E1 in *. lia. }
      apply (G (S (rank (dst c))) c id o); [lia|]. rewrite Ep. now left.
  Qed.

  Lemma can_finish : forall tr s, run tr s -> ~ In Trouble tr ->
    exists more s', run (tr ++ more) s' /\ quiet more /\ at_rest s'.
  Proof.
    intros tr s R1 NT. remember (measure s) as n eqn:En. revert tr s R1 NT En.
    induction n as [n IH] using lt_wf_ind. intros tr s R1 NT ->.
    destruct (forward_step _ _ R1 NT) as [E|(out & s' & R2 & Q2 & L)].
    - exists [], s. rewrite app_nil_r. split; [exact R1|]. split; [intros e []|now apply empty_rest].
    - destruct (IH _ L (tr ++ out) s' R2) as (more & s2 & R3 & Q3 & Rest).
      + intros X. apply in_app_iff in X. destruct X as [X|X]; [auto|]. exact (Q2 _ X).
      + reflexivity.
      + exists (out ++ more), s2. rewrite app_assoc. split; [exact R3|]. split; [now apply quiet_app|exact Rest].
  Qed.
End Proofs.
