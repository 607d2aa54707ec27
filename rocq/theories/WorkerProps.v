(** * C55: worker processes do not outlive their pool

    How to read.  [run addrs h s] is the history of a pool created with workers at
    [addrs]: [h] lists the states passed through and what happened in each, [s] is
    the state now.  A worker [p] is alive when [life s p <> Gone].  [Stopped] means
    that [pool.stop()] has returned, [Failed] that [create_actor_pool] has raised. *)
From Coq Require Import List Bool Arith Lia.
From Verif Require Import WorkerModel.
Import ListNotations.

(** ** Specification *)
Definition alive (s : st) (p : pid) : Prop := life s p <> Gone.
Definition nobody_left (s : st) : Prop := forall p, ~ alive s p.
(** The property: neither a stopped pool nor one that could not be created leaves
    a worker behind. *)
Definition claim : Prop := forall addrs h s, NoDup addrs -> run addrs h s ->
  (ph s = Stopped \/ ph s = Failed) -> nobody_left s.
(** What was going on when [stop] was called *)
Definition stop_called_in (h : list (st * label)) (s0 : st) : Prop := exists h1 h2, h = h1 ++ (s0, SBegin) :: h2.
Definition being_started (s0 : st) (p : pid) : Prop :=
  (exists a, recovering s0 = Some (a, p)) \/ (exists a, In (a, p) (appending s0)).
Definition being_removed (s0 : st) (p : pid) : Prop := exists a, In (a, p) (removing s0).
Definition listed (s : st) (a : addr) : Prop := exists p, In (a, p) (handles s).

(** ** Proofs *)
Definition late (h : list (st * label)) (p : pid) : Prop :=
  exists s0, stop_called_in h s0 /\ (being_started s0 p \/ being_removed s0 p \/ next s0 <= p).
Definition inv (h : list (st * label)) (s : st) : Prop :=
  (forall s0, stop_called_in h s0 -> next s0 <= next s) /\
  match ph s with
  | Creating todo w => NoDup (map fst w ++ todo)
  | Running => NoDup (map fst (handles s))
  | Stopping _ | Stopped => exists s0, stop_called_in h s0
  | Failed => True
  end /\
  forall p, alive s p -> p < next s /\
  match ph s with
  | Creating _ w => exists a, In (a, p) w
  | Running => (exists a, In (a, p) (handles s)) \/ being_started s p \/ being_removed s p
  | Stopping l => (exists a, In (a, p) l) \/ late h p
  | Stopped => late h p
  | Failed => True
  end.

Lemma stop_more h e s0 : stop_called_in h s0 -> stop_called_in (h ++ [e]) s0.
Proof. intros (h1 & h2 & ->). exists h1, (h2 ++ [e]). now rewrite <- app_assoc. Qed.
Lemma stop_split h s l s0 : stop_called_in (h ++ [(s, l)]) s0 -> stop_called_in h s0 \/ (s0 = s /\ l = SBegin).
Proof.
  intros (h1 & h2 & E). destruct h2 as [|x h2].
  - right. apply app_inj_tail in E as [_ E]. injection E as -> ->. auto.
  - left. destruct (exists_last (l := x :: h2)) as (h2' & e & E2); [discriminate|]. rewrite E2 in E.
    rewrite app_comm_cons, app_assoc in E. apply app_inj_tail in E as [E _]. now exists h1, h2'.
Qed.
Lemma late_more h e p : late h p -> late (h ++ [e]) p.
Proof. intros (s0 & Hs & H). exists s0. split; [now apply stop_more|exact H]. Qed.

Lemma in_without l a b p : In (b, p) (without l a) <-> In (b, p) l /\ b <> a.
Proof.
  unfold without. rewrite filter_In. cbn. destruct (Nat.eqb_spec b a); cbn; intuition (try congruence).
Qed.
Lemma in_put l a p b q : In (b, q) (put l a p) <-> (b = a /\ q = p) \/ (In (b, q) l /\ b <> a).
Proof.
  unfold put. rewrite in_app_iff, in_without. cbn. split.
  - intros [H|[H|[]]]; [auto|]. injection H as <- <-. auto.
  - intros [[-> ->]|H]; auto.
Qed.
Lemma in_drop l p a q : In (a, q) (drop l p) <-> In (a, q) l /\ q <> p.
Proof. unfold drop. rewrite filter_In. cbn. destruct (Nat.eqb_spec q p); cbn; intuition congruence. Qed.
Lemma nodup_without l a : NoDup (map fst l) -> NoDup (map fst (without l a)).
Proof.
  intros H. induction l as [|[b p] l IH]; [constructor|]. cbn in *. inversion H; subst.
  destruct (b =? a); cbn; [now apply IH|]. constructor; [|now apply IH].
  intros Hi. apply H2. apply in_map_iff in Hi as ([c q] & E & Hi). cbn in E. subst c.
  apply in_without in Hi as [Hi _]. apply in_map_iff. now exists (b, q).
Qed.
Lemma nodup_put l a p : NoDup (map fst l) -> NoDup (map fst (put l a p)).
Proof.
  intros H. unfold put. rewrite map_app. cbn.
  assert (Hn : ~ In a (map fst (without l a))).
  { intros Hi. apply in_map_iff in Hi as ([c q] & E & Hi). cbn in E. subst c. apply in_without in Hi as [_ Hi]. now apply Hi. }
  apply (nodup_without l a) in H. revert H Hn. generalize (map fst (without l a)). intros m Hm Hn.
  induction Hm as [|x m Hx Hm IH]; [constructor; [intros []|constructor]|].
  cbn. constructor.
  - rewrite in_app_iff. cbn. intros [Hi|[->|[]]]; [now apply Hx|]. apply Hn. now left.
  - apply IH. intros Hi. apply Hn. now right.
Qed.
Lemma nodup_fst_eq (l : list (addr * pid)) a p q : NoDup (map fst l) -> In (a, p) l -> In (a, q) l -> p = q.
Proof.
  induction l as [|[b r] l IH]; [intros _ []|]. cbn. intros Hn [Hp|Hp] [Hq|Hq]; inversion Hn; subst.
  - congruence.
  - exfalso. apply H1. injection Hp as -> ->. apply in_map_iff. now exists (a, q).
  - exfalso. apply H1. injection Hq as -> ->. apply in_map_iff. now exists (a, p).
  - now apply IH.
Qed.
Lemma live_set s p x q : set_life (life s) p x q <> Gone -> (q = p /\ x <> Gone) \/ (q <> p /\ alive s q).
Proof. unfold set_life. destruct (Nat.eqb_spec q p); [left; auto|right; auto]. Qed.

Lemma inv_step h s l s' : inv h s -> step s l s' -> inv (h ++ [(s, l)]) s'.
Proof.
  intros (Hmono & Hph & Hl) Hs.
  assert (Hm : forall s0, stop_called_in (h ++ [(s, l)]) s0 -> next s0 <= next s).
  { intros s0 H. apply stop_split in H as [H|[-> _]]; [now apply Hmono|lia]. }
  assert (Hex : (exists s0, stop_called_in h s0) -> exists s0, stop_called_in (h ++ [(s, l)]) s0).
  { intros (s0 & H). exists s0. now apply stop_more. }
  (* steps that leave the phase alone and start nothing *)
  assert (Keep : forall n' r' li' ha' re' ap' rm',
    n' = next s -> (forall p, li' p <> Gone -> alive s p) ->
    (ph s = Running -> NoDup (map fst ha')) ->
    (forall p, li' p <> Gone -> ph s = Running -> (exists a, In (a, p) (handles s)) \/ being_started s p \/ being_removed s p ->
       let s2 := mkW n' r' li' (ph s) ha' re' ap' rm' in
       (exists a, In (a, p) (handles s2)) \/ being_started s2 p \/ being_removed s2 p) ->
    inv (h ++ [(s, l)]) (mkW n' r' li' (ph s) ha' re' ap' rm')).
  { intros n' r' li' ha' re' ap' rm' -> Hli Hnd Hrun. split; [exact Hm|]. cbn. split.
    - destruct (ph s); auto.
    - intros p Hp. specialize (Hl p (Hli p Hp)). destruct Hl as [Hn Hl]. split; [exact Hn|].
      specialize (Hrun p Hp). destruct (ph s); auto.
      + destruct Hl as [Hl|Hl]; [now left|right; now apply late_more].
      + now apply late_more. }
  assert (Hkill : forall p q, set_life (life s) p Gone q <> Gone -> alive s q).
  { intros p q Hq. apply live_set in Hq as [[_ Hq]|[_ Hq]]; [congruence|exact Hq]. }
  destruct Hs.
  - (* ready *) apply Keep; auto.
    + intros q Hq. apply live_set in Hq as [[-> _]|[_ Hq]]; [|exact Hq]. unfold alive. congruence.
    + intros E. now rewrite E in Hph.
  - (* exit *) apply Keep; auto; [apply Hkill|]. intros E. now rewrite E in Hph.
  - (* spawn *) rewrite H in Hph, Hl. split; [cbn; intros s0 H0; apply Hm in H0; lia|]. cbn. split.
    + rewrite map_app. cbn. now rewrite <- app_assoc.
    + intros p Hp. apply live_set in Hp as [[-> _]|[_ Hp]].
      * split; [lia|]. exists a. apply in_app_iff. right. now left.
      * destruct (Hl p Hp) as (Hn & b & Hb). split; [lia|]. exists b. apply in_app_iff. now left.
  - (* create done *) rewrite H in Hph, Hl. split; [exact Hm|]. cbn. split; [now rewrite app_nil_r in Hph|].
    intros p Hp. destruct (Hl p Hp) as (Hn & b & Hb). split; [exact Hn|]. left. now exists b.
  - (* worker fails *) split; [exact Hm|]. cbn. split; [exact I|]. intros q Hq. split; [|exact I]. now apply (Hl q).
  - (* main fails *) split; [exact Hm|]. cbn. split; [exact I|]. intros q Hq. split; [|exact I]. now apply (Hl q).
  - (* recovery starts *) rewrite H in Hph, Hl. split; [cbn; intros s0 H3; apply Hm in H3; lia|]. cbn. rewrite H. split; [exact Hph|].
    intros q Hq. apply live_set in Hq as [[-> _]|[_ Hq]].
    + split; [lia|]. right. left. left. now exists a.
    + destruct (Hl q Hq) as (Hn & Hc). split; [lia|]. destruct Hc as [Hc|[[(b & Hc)|Hc]|Hc]].
      * now left.
      * exfalso. congruence.
      * right. left. now right.
      * right. now right.
  - (* recovery done *) apply Keep; auto.
    + intros E. rewrite E in Hph. now apply nodup_put.
    + intros q Hq _ Hc. cbn. destruct Hc as [(b & Hc)|[[(b & Hc)|Hc]|Hc]].
      * left. destruct (Nat.eq_dec b a) as [->|Hb].
        -- exfalso. apply Hq. now apply H2.
        -- exists b. apply in_put. auto.
      * left. rewrite H0 in Hc. injection Hc as <- <-. exists a. apply in_put. auto.
      * right. left. now right.
      * right. now right.
  - (* recovery fails *) apply Keep; auto.
    + intros E. now rewrite E in Hph.
    + intros q Hq _ Hc. cbn. destruct Hc as [Hc|[[(b & Hc)|Hc]|Hc]]; [now left| |right; left; now right|right; now right].
      exfalso. rewrite H0 in Hc. injection Hc as <- <-. now apply Hq.
  - (* append starts *)
    split; [cbn; intros s0 H3; apply Hm in H3; lia|]. cbn. split.
    { destruct (ph s); auto. }
    intros q Hq. apply live_set in Hq as [[-> _]|[_ Hq]].
    + split; [lia|]. destruct H as [E|[(l0 & E)|E]]; rewrite E in *.
      * right. left. right. exists a. apply in_app_iff. right. now left.
      * right. destruct Hph as (s0 & Hs0). exists s0. split; [now apply stop_more|]. right. right. now apply Hmono.
      * destruct Hph as (s0 & Hs0). exists s0. split; [now apply stop_more|]. right. right. now apply Hmono.
    + destruct (Hl q Hq) as (Hn & Hc). split; [lia|]. destruct (ph s); auto.
      * destruct Hc as [Hc|[[Hc|(b & Hc)]|Hc]]; [now left|right; left; now left| |right; now right].
        right. left. right. exists b. apply in_app_iff. now left.
      * destruct Hc as [Hc|Hc]; [now left|right; now apply late_more].
      * now apply late_more.
  - (* append done *) apply Keep; auto.
    + intros E. rewrite E in Hph. now apply nodup_put.
    + intros q Hq _ Hc. cbn. destruct (Nat.eq_dec q p) as [->|Hqp].
      { left. exists a. apply in_put. auto. }
      destruct Hc as [(b & Hc)|[[Hc|(b & Hc)]|Hc]].
      * left. destruct (Nat.eq_dec b a) as [->|Hb]; [exfalso; apply Hq; now apply H1|]. exists b. apply in_put. auto.
      * right. left. now left.
      * right. left. right. exists b. apply in_drop. auto.
      * right. now right.
  - (* append fails *) apply Keep; auto.
    + intros E. now rewrite E in Hph.
    + intros q Hq _ Hc. cbn. destruct Hc as [Hc|[[Hc|(b & Hc)]|Hc]]; [now left|right; left; now left| |right; now right].
      right. left. right. exists b. apply in_drop. split; [exact Hc|]. intros ->. now apply Hq.
  - (* remove starts *) rewrite H in Hph, Hl. apply Keep; auto.
    + intros _. now apply nodup_without.
    + intros q Hq _ Hc. cbn. destruct Hc as [(b & Hc)|[Hc|(b & Hc)]].
      * destruct (Nat.eq_dec b a) as [->|Hb].
        -- right. right. exists a. apply in_app_iff. right. left. f_equal. exact (nodup_fst_eq _ _ _ _ Hph H0 Hc).
        -- left. exists b. apply in_without. auto.
      * right. now left.
      * right. right. exists b. apply in_app_iff. now left.
  - (* remove done *) apply Keep; auto; [apply Hkill| |].
    + intros E. now rewrite E in Hph.
    + intros q Hq _ Hc. cbn. destruct Hc as [Hc|[Hc|(b & Hc)]]; [now left|right; now left|].
      right. right. exists b. apply in_drop. split; [exact Hc|]. apply live_set in Hq as [[_ Hq]|[Hq _]]; [congruence|exact Hq].
  - (* stop begins *) rewrite H in Hph, Hl.
    assert (Hh : stop_called_in (h ++ [(s, SBegin)]) s) by (exists h, []; reflexivity).
    split; [exact Hm|]. cbn. split; [now exists s|].
    intros p Hp. destruct (Hl p Hp) as (Hn & Hc). split; [exact Hn|]. destruct Hc as [(b & Hc)|[Hc|Hc]].
    + left. exists b. apply filter_In. split; [exact Hc|]. cbn. unfold alive in Hp. cbn in Hp. destruct (life s p); congruence.
    + right. exists s. auto.
    + right. exists s. auto.
  - (* kill *) rewrite H in Hph, Hl. split; [exact Hm|]. cbn. split; [now apply Hex|].
    intros q Hq. apply live_set in Hq as [[_ Hq]|[Hqp Hq]]; [congruence|].
    destruct (Hl q Hq) as (Hn & Hc). split; [exact Hn|]. destruct Hc as [(b & Hc)|Hc].
    + left. exists b. apply in_drop. auto.
    + right. now apply late_more.
  - (* stopped *) rewrite H in Hph, Hl. split; [exact Hm|]. cbn. split; [now apply Hex|].
    intros q Hq. destruct (Hl q Hq) as (Hn & Hc). split; [exact Hn|]. destruct Hc as [(b & [])|Hc]. now apply late_more.
Qed.
Lemma inv_run addrs h s : NoDup addrs -> run addrs h s -> inv h s.
Proof.
  intros Hn Hr. induction Hr as [|h s l s' Hr IH Hs].
  - split; [|split].
    + intros s0 (h1 & h2 & E). destruct h1; discriminate.
    + exact Hn.
    + intros p Hp. now destruct Hp.
  - now apply inv_step.
Qed.

(** ** Theorems *)
(** After [stop] has returned, the only workers that can be alive are those that
    were being started or removed when it was called, and those started after. *)
Theorem C55_survivors_of_stop_partial addrs h s p :
  NoDup addrs -> run addrs h s -> ph s = Stopped -> alive s p ->
  exists s0, stop_called_in h s0 /\ (being_started s0 p \/ being_removed s0 p \/ next s0 <= p).
Proof.
  intros Hn Hr Hp Ha. destruct (inv_run _ _ _ Hn Hr) as (_ & _ & H). rewrite Hp in H. exact (proj2 (H p Ha)).
Qed.
(** So a pool that is stopped in peace leaves nobody behind. *)
Theorem C55_stop_in_peace_partial addrs h s :
  NoDup addrs -> run addrs h s -> ph s = Stopped ->
  (forall s0, stop_called_in h s0 -> recovering s0 = None /\ appending s0 = [] /\ removing s0 = [] /\ next s0 = next s) ->
  nobody_left s.
Proof.
  intros Hn Hr Hp Hq p Ha. destruct (inv_run _ _ _ Hn Hr) as (_ & _ & Hl). destruct (Hl p Ha) as [Hlt _].
  destruct (C55_survivors_of_stop_partial _ _ _ _ Hn Hr Hp Ha) as (s0 & Hs & H).
  destruct (Hq s0 Hs) as (E1 & E2 & E3 & E4).
  destruct H as [[(a & H)|(a & H)]|[(a & H)|H]].
  - congruence.
  - rewrite E2 in H. exact H.
  - rewrite E3 in H. exact H.
  - lia.
Qed.
(** While the pool runs, each living worker is listed, or some call in progress
    is taking care of it. *)
Theorem C55_accounted_for addrs h s p :
  NoDup addrs -> run addrs h s -> ph s = Running -> alive s p ->
  (exists a, In (a, p) (handles s)) \/ being_started s p \/ being_removed s p.
Proof.
  intros Hn Hr Hp Ha. destruct (inv_run _ _ _ Hn Hr) as (_ & _ & H). rewrite Hp in H. exact (proj2 (H p Ha)).
Qed.
(** Who is left when the pool is gone stays: no step but its own exit ends it. *)
Theorem C55_left_for_good s l s' p :
  (ph s = Stopped \/ ph s = Failed) -> alive s p -> ~ being_removed s p -> step s l s' -> l <> WExit p ->
  alive s' p /\ ph s' = ph s /\ ~ being_removed s' p.
Proof.
  intros Hp Ha Hr Hs Hl. unfold alive, being_removed in *.
  destruct Hs; cbn; try (destruct Hp; congruence).
  - split; [|auto]. unfold set_life. destruct (p =? p0); [discriminate|exact Ha].
  - split; [|auto]. unfold set_life. destruct (Nat.eqb_spec p p0); [now subst|exact Ha].
  - split; [|auto]. unfold set_life. destruct (p =? next s); [discriminate|exact Ha].
  - auto.
  - auto.
  - split; [|split; [reflexivity|]].
    + unfold set_life. destruct (Nat.eqb_spec p p0); [|exact Ha]. subst. exfalso. apply Hr. now exists a.
    + intros (b & Hb). apply in_drop in Hb as [Hb _]. apply Hr. now exists b.
Qed.

(** A removed worker's address stays off the list, unless the monitor was just
    restarting it or it is appended anew. *)
Inductive from (s : st) : list label -> st -> Prop :=
| from_nil : from s [] s
| from_step ls s1 l s2 : from s ls s1 -> step s1 l s2 -> from s (ls ++ [l]) s2.
Theorem C55_removed_stays_removed_partial a s0 s1 ls s :
  step s0 (RStart a) s1 -> (forall p, recovering s0 <> Some (a, p)) ->
  from s1 ls s -> (forall p, ~ In (ADone a p) ls) -> ~ listed s a.
Proof.
  intros H0 Hrec Hf Hno. enough (~ listed s a /\ (forall p, recovering s <> Some (a, p))) as H by apply H.
  assert (Hph : forall todo w, ph s <> Creating todo w).
  { clear Hno. induction Hf as [|ls s1' l s2 Hf IH Hs]; intros todo w.
    - inversion H0; subst; cbn. congruence.
    - destruct Hs; cbn; try apply IH; try congruence; exfalso; eapply IH; eassumption. }
  revert Hph. induction Hf as [|ls s1' l s2 Hf IH Hs]; intros Hph.
  - inversion H0; subst; cbn. split; [|exact Hrec]. intros (q & Hq). cbn in Hq. apply in_without in Hq as [_ Hq]. now apply Hq.
  - assert (Hph1 : forall todo w, ph s1' <> Creating todo w).
    { clear -Hf H0. induction Hf as [|ls s1' l s2 Hf IH Hs]; intros todo w.
      - inversion H0; subst; cbn. congruence.
      - destruct Hs; cbn; try apply IH; try congruence; exfalso; eapply IH; eassumption. }
    destruct IH as [IHl IHr]; [intros p Hp; apply (Hno p); apply in_app_iff; now left|exact Hph1|].
    unfold listed in *. destruct Hs; cbn; auto.
    + exfalso. eapply Hph1; eassumption.
    + split; [exact IHl|]. intros q E. injection E as -> _. apply IHl. now exists p.
    + split; [|discriminate]. intros (q & Hq). apply in_put in Hq as [[-> ->]|[Hq _]].
      * now apply (IHr p).
      * apply IHl. now exists q.
    + split; [exact IHl|discriminate].
    + split; [|exact IHr]. intros (q & Hq). apply in_put in Hq as [[-> ->]|[Hq _]].
      * apply (Hno p). apply in_app_iff. right. now left.
      * apply IHl. now exists q.
    + split; [|exact IHr]. intros (q & Hq). apply in_without in Hq as [Hq _]. apply IHl. now exists q.
    + split; [exact IHl|discriminate].
Qed.

(** ** Workers are waited for *)
Definition serves_since (h : list (st * label)) (p : pid) : Prop := exists s0, In (s0, WReady p) h.
Lemma reported_iff addrs h s p : run addrs h s -> (In p (reported s) <-> serves_since h p).
Proof.
  induction 1 as [|h s l s' R IH S]; [cbn; split; [intros []|intros (? & [])]|].
  assert (A : serves_since (h ++ [(s, l)]) p <-> serves_since h p \/ l = WReady p).
  { unfold serves_since. split.
    - intros (s0 & I). apply in_app_or in I. destruct I as [I|[I|[]]]; [left; eauto|]. injection I as _ ->. auto.
    - intros [(s0 & I)| ->]; [exists s0|exists s]; apply in_or_app; cbn; auto. }
  rewrite A, <- IH. destruct S; cbn [reported]; try (split; [auto|intros [?|?]; [assumption|discriminate]]).
  cbn. split; [intros [->|?]; auto|intros [?|E]; [auto|injection E as ->; auto]].
Qed.
Lemma creating_order addrs h s todo w : run addrs h s -> ph s = Creating todo w -> map fst w ++ todo = addrs.
Proof.
  intros R. revert todo w. induction R as [|h s l s' R IH S]; intros todo w P; [cbn in P; injection P as <- <-; reflexivity|].
  destruct S; cbn in P; try discriminate P; try (eapply IH; eassumption).
  injection P as <- <-. rewrite map_app, <- app_assoc. cbn. now apply IH.
Qed.

(** [create_actor_pool] returns when every worker it has started has reported that it serves, and not before:
    one for each address it was given. *)
Theorem C55_created_when_all_serve addrs h s :
  run addrs h s ->
  (forall s', step s CDone s' ->
     map fst (handles s') = addrs /\ (forall a p, In (a, p) (handles s') -> serves_since h p)) /\
  (forall w, ph s = Creating [] w -> (forall a p, In (a, p) w -> serves_since h p) ->
     exists s', step s CDone s' /\ ph s' = Running /\ handles s' = w).
Proof.
  intros R. split.
  - intros s' S. inversion S as [| | |w P H| | | | | | | | | | | | |]; subst. cbn [handles]. split.
    + rewrite <- (creating_order _ _ _ _ _ R P). now rewrite app_nil_r.
    + intros a p I. apply (reported_iff _ _ _ p R). eapply H; eauto.
  - intros w P H. eexists. split; [eapply c_done; [exact P|]|split; reflexivity].
    intros a p I. apply (reported_iff _ _ _ p R). eauto.
Qed.
(** So for a restarted worker and for an appended one: it is listed once it has reported, and not before. *)
Theorem C55_listed_when_it_serves addrs h s :
  run addrs h s ->
  (forall s' a p, step s MDone s' -> recovering s = Some (a, p) -> serves_since h p /\ In (a, p) (handles s')) /\
  (forall s' a p, step s (ADone a p) s' -> serves_since h p /\ In (a, p) (handles s')).
Proof.
  intros R. split.
  - intros s' a p S E. inversion S; subst. match goal with H : recovering s = Some (?x, ?y), H' : In ?y (reported s) |- _ =>
      rewrite E in H; injection H as <- <-; split; [apply (reported_iff _ _ _ _ R); exact H'|cbn; apply in_put; auto] end.
  - intros s' a p S. inversion S; subst. split; [now apply (reported_iff _ _ _ _ R)|]. cbn. apply in_put. auto.
Qed.

(** ** Concrete histories, and what goes wrong *)
Module Demo.
  (** One worker at address 7 is created and serves; the pool is stopped. *)
  Lemma create1 : exists h s, run [7] h s /\ ph s = Running /\ handles s = [(7, 0)] /\ next s = 1 /\
    recovering s = None /\ appending s = [] /\ removing s = [] /\ reported s = [0] /\ life s 0 = Up /\
    (forall s0, ~ stop_called_in h s0).
  Proof.
    eexists. eexists. split.
    { eapply run_step; [eapply run_step; [eapply run_step; [apply run_init|]|]|].
      - eapply c_spawn. reflexivity.
      - apply (w_ready _ 0). reflexivity.
      - eapply c_done; [reflexivity|]. cbn. intros a p [H|[]]. injection H as <- <-. now left. }
    cbn. repeat (split; [reflexivity|]).
    intros s0 (h1 & h2 & E). destruct h1 as [|? [|? [|? [|? ?]]]]; discriminate E.
  Qed.
  Example stopped_in_peace : exists h s, run [7] h s /\ ph s = Stopped /\ nobody_left s.
  Proof.
    destruct create1 as (h & s & Hr & Hp & Hh & Hn & Hre & Ha & Hrm & Hrep & Hl & Hno).
    assert (H : exists h' s', run [7] h' s' /\ ph s' = Stopped /\ next s' = 1 /\ forall s0, stop_called_in h' s0 -> s0 = s).
    { eexists. eexists. split.
      { eapply run_step; [eapply run_step; [eapply run_step; [exact Hr|]|]|].
        - apply s_begin. exact Hp.
        - eapply (s_kill _ _ 7 0); [reflexivity|]. rewrite Hh. cbn. rewrite Hl. now left.
        - apply s_end. cbn. rewrite Hh. cbn. rewrite Hl. reflexivity. }
      split; [reflexivity|]. split; [exact Hn|].
      intros s0 Hs. apply stop_split in Hs as [Hs|[_ Hs]]; [|discriminate].
      apply stop_split in Hs as [Hs|[_ Hs]]; [|discriminate].
      apply stop_split in Hs as [Hs|[Hs _]]; [|exact Hs]. now apply Hno in Hs. }
    destruct H as (h' & s' & Hr' & Hp' & Hn' & Hs'). exists h', s'. split; [exact Hr'|]. split; [exact Hp'|].
    apply (C55_stop_in_peace_partial [7] h' s'); auto; [constructor; [intros []|constructor]|].
    intros s0 H0. apply Hs' in H0 as ->. rewrite Hre, Ha, Hrm, Hn, Hn'. auto.
  Qed.
  (** Creation: two workers, one serving, the other dies while booting. *)
  Lemma worker_failed : exists h s s', run [7; 8] h s /\ step s (CWorkerFails 1) s' /\ ph s' = Failed /\ life s' 0 = Up.
  Proof.
    eexists. eexists. eexists. split.
    { eapply run_step; [eapply run_step; [eapply run_step; [eapply run_step; [apply run_init|]|]|]|].
      - eapply c_spawn. reflexivity.
      - eapply c_spawn. reflexivity.
      - apply (w_ready _ 0). reflexivity.
      - apply (w_exit _ 1); cbn; [lia|discriminate]. }
    split.
    { eapply (c_worker_fails _ [(7, 0)] 8 1 []); [reflexivity| |reflexivity|].
      - cbn. intros b q [H|[]]. injection H as <- <-. now left.
      - cbn. intros [H|[]]. discriminate H. }
    split; reflexivity.
  Qed.
  (** The worker serves, and the main server cannot be created. *)
  Lemma main_failed : exists h s, run [7] h s /\ ph s = Failed /\ life s 0 = Up.
  Proof.
    eexists. eexists. split.
    { eapply run_step; [eapply run_step; [eapply run_step; [apply run_init|]|]|].
      - eapply c_spawn. reflexivity.
      - apply (w_ready _ 0). reflexivity.
      - eapply c_main_fails; [reflexivity|]. cbn. intros a p [H|[]]. injection H as <- <-. now left. }
    split; reflexivity.
  Qed.
  (** The worker dies, the monitor restarts it, and the pool is stopped meanwhile. *)
  Lemma stopped_while_recovering : exists h s, run [7] h s /\ ph s = Stopped /\ life s 1 = Up.
  Proof.
    destruct create1 as (h & s & Hr & Hp & Hh & Hn & Hre & Ha & Hrm & Hrep & Hl & Hno).
    eexists. eexists. split.
    { eapply run_step; [eapply run_step; [eapply run_step; [eapply run_step; [eapply run_step; [exact Hr|]|]|]|]|].
      - apply (w_exit _ 0); [lia|congruence].
      - apply (m_start _ 7 0); cbn; auto. rewrite Hh. now left.
      - apply s_begin. exact Hp.
      - apply (w_ready _ 1). cbn. rewrite Hn. reflexivity.
      - apply s_end. cbn. rewrite Hh. cbn. rewrite Hn. reflexivity. }
    split; reflexivity.
  Qed.
  (** The worker at 7 dies and is being restarted; [remove_sub_pool] of 7 is called
      and returns; the restart completes. *)
  Lemma removed_comes_back : exists h s0 s1 s2 s3 s4,
    run [7] h s0 /\ step s0 (RStart 7) s1 /\ step s1 (RDone 0) s2 /\ step s2 (WReady 1) s3 /\ step s3 MDone s4 /\
    listed s4 7 /\ alive s4 1.
  Proof.
    destruct create1 as (h & s & Hr & Hp & Hh & Hn & Hre & Ha & Hrm & Hrep & Hl & Hno).
    eexists. eexists. eexists. eexists. eexists. eexists.
    split.
    { eapply run_step; [eapply run_step; [exact Hr|]|].
      - apply (w_exit _ 0); [lia|congruence].
      - apply (m_start _ 7 0); cbn; auto. rewrite Hh. now left. }
    split; [apply (r_start _ 7 0); cbn; [exact Hp|rewrite Hh; now left]|].
    split; [apply (r_done _ 7 0); cbn; rewrite Hrm; now left|].
    split; [apply (w_ready _ 1); cbn; rewrite Hn; reflexivity|].
    split.
    { eapply (m_done _ 7 1); cbn; [exact Hp|rewrite Hn; reflexivity|now left|].
      intros p Hi. cbn in Hi. apply in_without in Hi as [_ Hi]. now contradict Hi. }
    cbn. split; [exists 1; apply in_put; auto|]. unfold alive. cbn. discriminate.
  Qed.
  (** Non-vacuity of [C55_removed_stays_removed_partial] *)
  Example removed_for_good : exists h s0 s1 s2, run [7] h s0 /\ step s0 (RStart 7) s1 /\ from s1 [RDone 0] s2 /\ ~ listed s2 7.
  Proof.
    destruct create1 as (h & s & Hr & Hp & Hh & Hn & Hre & Ha & Hrm & Hrep & Hl & Hno).
    assert (H1 : step s (RStart 7) (mkW (next s) (reported s) (life s) (ph s) (without (handles s) 7) (recovering s) (appending s) (removing s ++ [(7, 0)]))).
    { apply r_start; [exact Hp|]. rewrite Hh. now left. }
    assert (H2 : exists s2, from (mkW (next s) (reported s) (life s) (ph s) (without (handles s) 7) (recovering s) (appending s) (removing s ++ [(7, 0)])) [RDone 0] s2).
    { eexists. apply (from_step _ [] _ (RDone 0) _ (from_nil _)). apply (r_done _ 7 0). cbn. rewrite Hrm. now left. }
    destruct H2 as (s2 & H2). exists h, s. eexists. exists s2. split; [exact Hr|]. split; [exact H1|]. split; [exact H2|].
    eapply C55_removed_stays_removed_partial; [exact H1| |exact H2|].
    - rewrite Hre. discriminate.
    - intros p [H|[]]. discriminate H.
  Qed.
End Demo.

(** The property is false.  Three ways: the main server of a new pool cannot be
    created, one worker of a new pool does not start, or the pool is stopped
    while a dead worker is being restarted. *)
Theorem C55_no_worker_left_refuted : ~ claim.
Proof.
  intros H. destruct Demo.main_failed as (h & s & Hr & Hp & Hl).
  apply (H [7] h s (NoDup_cons 7 (@in_nil _ 7) (NoDup_nil _)) Hr (or_intror Hp) 0). unfold alive. congruence.
Qed.
Theorem C55_stop_while_recovering_refuted :
  ~ (forall addrs h s, NoDup addrs -> run addrs h s -> ph s = Stopped -> nobody_left s).
Proof.
  intros H. destruct Demo.stopped_while_recovering as (h & s & Hr & Hp & Hl).
  apply (H [7] h s (NoDup_cons 7 (@in_nil _ 7) (NoDup_nil _)) Hr Hp 1). unfold alive. congruence.
Qed.
Theorem C55_failed_worker_refuted :
  ~ (forall addrs h s p s', NoDup addrs -> run addrs h s -> step s (CWorkerFails p) s' -> nobody_left s').
Proof.
  intros H. destruct Demo.worker_failed as (h & s & s' & Hr & Hs & Hp & Hl).
  assert (Hn : NoDup [7; 8]) by (constructor; [cbn; intros [E|[]]; discriminate|constructor; [intros []|constructor]]).
  apply (H [7; 8] h s 1 s' Hn Hr Hs 0). unfold alive. congruence.
Qed.
Theorem C55_removed_stays_removed_refuted :
  ~ (forall addrs h a s0 s1 ls s, NoDup addrs -> run addrs h s0 -> step s0 (RStart a) s1 ->
       from s1 ls s -> (forall p, ~ In (ADone a p) ls) -> ~ listed s a).
Proof.
  intros H. destruct Demo.removed_comes_back as (h & s0 & s1 & s2 & s3 & s4 & Hr & H1 & H2 & H3 & H4 & Hl & _).
  refine (H [7] h 7 s0 s1 [RDone 0; WReady 1; MDone] s4 (NoDup_cons 7 (@in_nil _ 7) (NoDup_nil _)) Hr H1 _ _ Hl).
  - exact (from_step _ _ _ _ _ (from_step _ _ _ _ _ (from_step _ _ _ _ _ (from_nil _) H2) H3) H4).
  - cbn. intros p [E|[E|[E|[]]]]; discriminate E.
Qed.

Print Assumptions C55_survivors_of_stop_partial.
Print Assumptions C55_stop_in_peace_partial.
Print Assumptions C55_accounted_for.
Print Assumptions C55_left_for_good.
Print Assumptions C55_removed_stays_removed_partial.
Print Assumptions C55_no_worker_left_refuted.
Print Assumptions C55_stop_while_recovering_refuted.
Print Assumptions C55_failed_worker_refuted.
Print Assumptions C55_removed_stays_removed_refuted.
Print Assumptions C55_created_when_all_serve.
Print Assumptions C55_listed_when_it_serves.
