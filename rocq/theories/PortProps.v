(** * C29: get_next_port returns a free port of the range, if there is one

    How to read.  A history is the list of the calls of one process, newest
    first; each call carries what the operating system reported as busy, the
    random number drawn, the [occupy] flag and the outcome.  A port is [taken]
    for a call if the system reports it or an earlier call of this process with
    [occupy=True] returned it.  The theorem says that for every history a call
    returns a port of 10000..65535 that is not taken whenever there is one, and
    fails exactly when all are taken. *)
From Coq Require Import List ZArith Bool Lia.
From Verif Require Import PortModel.
Import ListNotations.
Open Scope Z_scope.

(** ** Specification *)
Definition in_range (p : Z) : Prop := 10000 <= p <= 65535.

(** Ports handed out with [occupy=True] by the calls of a history. *)
Definition handed_out (h : list call) (p : Z) : Prop :=
  exists c, In c h /\ c_occ c = true /\ c_out c = Port p.

Definition taken (conns : list Z) (earlier : list call) (p : Z) : Prop :=
  In p conns \/ handed_out earlier p.

(** ** Lemmas *)
Lemma mem_In x s : mem x s = true <-> In x s.
Proof.
  unfold mem. rewrite existsb_exists. split.
  - intros (y & I & E). apply Z.eqb_eq in E. now subst.
  - intros I. exists x. split; auto. apply Z.eqb_refl.
Qed.

Lemma sadd_In s x y : In y (sadd s x) <-> y = x \/ In y s.
Proof.
  unfold sadd. destruct (mem x s) eqn:E; simpl.
  - apply mem_In in E. split; auto. intros [->|]; auto.
  - split; intros [|]; auto.
Qed.

Lemma sadd_NoDup s x : NoDup s -> NoDup (sadd s x).
Proof.
  unfold sadd. destruct (mem x s) eqn:E; auto. intros N. constructor; auto.
  rewrite <- mem_In. congruence.
Qed.

Lemma supdate_In xs : forall s y, In y (supdate s xs) <-> In y s \/ In y xs.
Proof.
  unfold supdate. induction xs as [|x xs IH]; simpl; intros.
  - tauto.
  - rewrite IH, sadd_In. intuition congruence.
Qed.

Lemma supdate_NoDup xs : forall s, NoDup s -> NoDup (supdate s xs).
Proof. unfold supdate. induction xs; simpl; auto using sadd_NoDup. Qed.

Lemma zcount_In n : forall lo p, In p (zcount lo n) <-> lo <= p < lo + Z.of_nat n.
Proof.
  induction n as [|n IH]; intros lo p; cbn [zcount In]; [lia|]. rewrite IH. lia.
Qed.

Lemma zrange_In lo hi p : In p (zrange lo hi) <-> lo <= p < hi.
Proof. unfold zrange. rewrite zcount_In. lia. Qed.

Lemma zrange_NoDup lo hi : NoDup (zrange lo hi).
Proof.
  unfold zrange. generalize (Z.to_nat (hi - lo)). intros n. revert lo.
  induction n as [|n IH]; intros lo; cbn [zcount]; constructor; auto.
  rewrite zcount_In. lia.
Qed.

Lemma zrange_length lo hi : length (zrange lo hi) = Z.to_nat (hi - lo).
Proof.
  unfold zrange. generalize (Z.to_nat (hi - lo)). intros n. revert lo.
  induction n as [|n IH]; intros lo; cbn [zcount length]; auto.
Qed.

Definition free (occ : list Z) (ports : list Z) : list Z :=
  filter (fun p => negb (mem p occ)) ports.

Lemma scan_spec occ ports : forall idx, 0 <= idx ->
  scan occ idx ports =
  match nth_error (free occ ports) (Z.to_nat idx) with Some p => Port p | None => SystemError end.
Proof.
  unfold free. induction ports as [|i ports IH]; intros idx P; cbn [scan filter].
  - now destruct (Z.to_nat idx).
  - destruct (mem i occ); cbn [negb].
    + now apply IH.
    + destruct (idx =? 0) eqn:E.
      * apply Z.eqb_eq in E. subst. reflexivity.
      * apply Z.eqb_neq in E. rewrite IH by lia.
        replace (Z.to_nat idx) with (S (Z.to_nat (idx - 1))) by lia. reflexivity.
Qed.

Lemma filter_compl {A} (f : A -> bool) l :
  (length (filter f l) + length (filter (fun x => negb (f x)) l) = length l)%nat.
Proof. induction l as [|a l IH]; simpl; auto. destruct (f a); simpl; lia. Qed.

Lemma free_le occ l : (length (free occ l) <= length l)%nat.
Proof. unfold free. induction l as [|a l IH]; simpl; auto. destruct (mem a occ); simpl; lia. Qed.

(** With [occ] a duplicate-free subset of [ports], the free ones are the rest. *)
Lemma free_length occ ports : NoDup occ -> NoDup ports -> incl occ ports ->
  (length occ + length (free occ ports) = length ports)%nat.
Proof.
  intros N1 N2 I. rewrite <- (filter_compl (fun p => mem p occ) ports). f_equal.
  apply Nat.le_antisymm.
  - apply NoDup_incl_length; auto. intros x H. apply filter_In. split; auto. now apply mem_In.
  - apply NoDup_incl_length; [now apply NoDup_filter|].
    intros x H. apply filter_In in H. now apply mem_In.
Qed.

Record inv (local : list Z) (h : list call) : Prop := {
  i_nodup : NoDup local;
  i_range : forall p, In p local -> in_range p;
  i_mem : forall p, In p local <-> handed_out h p }.

Global Arguments zrange : simpl never.
Definition ALL := zrange LOW_PORT_BOUND (HIGH_PORT_BOUND + 1).
Lemma ALL_In p : In p ALL <-> in_range p.
Proof. unfold ALL. rewrite zrange_In. unfold in_range, LOW_PORT_BOUND, HIGH_PORT_BOUND. lia. Qed.
Lemma ALL_len : Z.of_nat (length ALL) = 1 + HIGH_PORT_BOUND - LOW_PORT_BOUND.
Proof. unfold ALL. rewrite zrange_length. unfold LOW_PORT_BOUND, HIGH_PORT_BOUND. lia. Qed.

Lemma reported_In conns p : In p (reported conns) <-> In p conns /\ in_range p.
Proof.
  unfold reported. rewrite supdate_In, filter_In, andb_true_iff, !Z.leb_le.
  unfold in_range, LOW_PORT_BOUND, HIGH_PORT_BOUND. simpl. tauto.
Qed.

Lemma one_call conns r occ local : NoDup local -> (forall p, In p local -> in_range p) -> 0 <= r ->
  let F := free (supdate (reported conns) local) ALL in
  (length F > 0)%nat /\
    (exists p, nth_error F (Z.to_nat (r mod Z.of_nat (length F))) = Some p /\
       get_next_port conns r occ local = (Port p, if occ then sadd local p else local))
  \/ length F = O /\ get_next_port conns r occ local = (ZeroDivisionError, local).
Proof.
  intros N R P F. unfold get_next_port.
  set (O := supdate (reported conns) local) in *.
  assert (L : (length O + length F = length ALL)%nat).
  { apply free_length.
    - unfold O. apply supdate_NoDup. unfold reported. apply supdate_NoDup. constructor.
    - apply zrange_NoDup.
    - intros p H. apply ALL_In. unfold O in H. apply supdate_In in H. destruct H as [H|H]; auto.
      apply reported_In in H. tauto. }
  assert (L2 := ALL_len).
  replace (1 + HIGH_PORT_BOUND - LOW_PORT_BOUND - Z.of_nat (length O)) with (Z.of_nat (length F)) by lia.
  destruct (Z.of_nat (length F) =? 0) eqn:E.
  - apply Z.eqb_eq in E. right. split; auto. lia.
  - apply Z.eqb_neq in E. left. split; [lia|]. cbv zeta.
    assert (B := Z.mod_pos_bound r (Z.of_nat (length F)) ltac:(lia)).
    rewrite scan_spec by lia. fold ALL. fold F.
    destruct (nth_error F (Z.to_nat (r mod Z.of_nat (length F)))) as [p|] eqn:Q.
    + exists p. auto.
    + apply nth_error_None in Q. lia.
Qed.

Lemma free_In occ p : In p (free occ ALL) <-> in_range p /\ ~ In p occ.
Proof.
  unfold free. rewrite filter_In, ALL_In, negb_true_iff, <- mem_In.
  destruct (mem p occ); intuition congruence.
Qed.

Lemma reach_inv local h : reach local h -> inv local h.
Proof.
  induction 1 as [|local h conns r occ out local' R IH P E].
  - constructor; [constructor|intros ? []|]. intros p. split; [intros []|]. intros (c & [] & _).
  - destruct IH as [N RG M].
    destruct (one_call conns r occ local N RG P) as [(_ & p & Q & G)|(_ & G)]; rewrite G in E;
      inversion E; subst; clear E.
    + assert (I : In p (free (supdate (reported conns) local) ALL)) by (eapply nth_error_In; eauto).
      apply free_In in I. destruct I as [I1 I2].
      assert (HO : forall q, handed_out ({| c_conns := conns; c_rand := r; c_occ := occ; c_out := Port p |} :: h) q
                   <-> (occ = true /\ q = p) \/ handed_out h q).
      { intros q. unfold handed_out. split.
        - intros (c & [<-|Ic] & A & B).
          + cbn [c_occ c_out] in A, B. left. split; congruence.
          + right. eauto.
        - intros [[-> ->]|(c & Ic & A & B)].
          + eexists. split; [left; reflexivity|]. simpl. auto.
          + exists c. simpl. auto. }
      constructor.
      * destruct occ; auto using sadd_NoDup.
      * destruct occ; auto. intros q Hq. apply sadd_In in Hq. destruct Hq; subst; auto.
      * intros q. rewrite HO, <- M. destruct occ; [rewrite sadd_In|]; intuition congruence.
    + constructor; auto. intros q. rewrite M. unfold handed_out. split.
      * intros (c & Ic & A). exists c. simpl. auto.
      * intros (c & [<-|Ic] & A & B); [simpl in B; discriminate|]. eauto.
Qed.

(** ** The property *)

(** Every call of every history: a free port of the range if there is one, and
    a failure (a ZeroDivisionError, and no change of the state) if there is none. *)
Theorem C29_free_port_or_failure local h conns r occ out local' :
  reach local h -> 0 <= r ->
  get_next_port conns r occ local = (out, local') ->
  ((exists p, in_range p /\ ~ taken conns h p) <-> exists p, out = Port p) /\
  (forall p, out = Port p -> in_range p /\ ~ taken conns h p) /\
  ((forall p, in_range p -> taken conns h p) -> out = ZeroDivisionError /\ local' = local).
Proof.
  intros R P G. apply reach_inv in R. destruct R as [N RG M].
  assert (T : forall p, In p (free (supdate (reported conns) local) ALL) <-> in_range p /\ ~ taken conns h p).
  { intros p. rewrite free_In, supdate_In, reported_In. unfold taken. rewrite <- M. tauto. }
  destruct (one_call conns r occ local N RG P) as [(L & p & Q & G')|(L & G')]; rewrite G' in G;
    inversion G; subst; clear G.
  - assert (I := nth_error_In _ _ Q). apply T in I. split; [|split].
    + split; intros _; eauto.
    + intros q E. inversion E; subst. auto.
    + intros A. destruct I as [I1 I2]. elim I2. auto.
  - split; [|split].
    + split; [|intros (q & E); discriminate]. intros (q & Hq). apply T in Hq.
      destruct (free (supdate (reported conns) local') ALL); [destruct Hq|simpl in L; discriminate].
    + intros q E. discriminate.
    + auto.
Qed.

(** Two calls of one process with [occupy=True] never return the same port,
    whatever the operating system reports and whatever is drawn. *)
Theorem C29_never_twice local h1 c1 h2 c2 h3 p1 p2 :
  reach local (h1 ++ c1 :: h2 ++ c2 :: h3) ->
  c_occ c2 = true -> c_out c1 = Port p1 -> c_out c2 = Port p2 -> p1 <> p2.
Proof.
  intros R OC O1 O2 ->.
  assert (S : exists loc, reach loc (c1 :: h2 ++ c2 :: h3)).
  { revert local R. induction h1 as [|c h1 IH]; simpl; intros local R; [eauto|].
    inversion R; subst. eauto. }
  destruct S as (loc & S). inversion S as [|l0 h0 cn r oc out l1 R0 P G]; subst. simpl in O1. subst out.
  destruct (C29_free_port_or_failure _ _ _ _ _ _ _ R0 P G) as (_ & F & _).
  destruct (F _ eq_refl) as [_ NT]. apply NT. right. exists c2. split; auto.
  apply in_or_app. simpl. auto.
Qed.

(** Every free port can be drawn: for each free port there are random numbers
    for which it is the one returned (no port is excluded). *)
Theorem C29_every_free_port_possible local h conns occ p :
  reach local h -> in_range p -> ~ taken conns h p ->
  exists r, 0 <= r /\ r <= 55535 /\ fst (get_next_port conns r occ local) = Port p.
Proof.
  intros R I NT. apply reach_inv in R. destruct R as [N RG M].
  set (F := free (supdate (reported conns) local) ALL).
  assert (IF : In p F).
  { unfold F. rewrite free_In, supdate_In, reported_In, M. unfold taken in NT. tauto. }
  destruct (In_nth_error _ _ IF) as (i & E).
  assert (LI : (i < length F)%nat) by (apply nth_error_Some; congruence).
  assert (LF : (length F <= length ALL)%nat).
  { apply free_le. }
  assert (LA := ALL_len). unfold HIGH_PORT_BOUND, LOW_PORT_BOUND in LA.
  exists (Z.of_nat i). split; [lia|]. split; [lia|].
  destruct (one_call conns (Z.of_nat i) occ local N RG ltac:(lia)) as [(_ & q & Q & ->)|(L & _)].
  - fold F in Q. rewrite Z.mod_small, Nat2Z.id in Q by lia. simpl. congruence.
  - fold F in L. lia.
Qed.

(** ** Non-vacuity *)
Example call_1 : get_next_port [10000; 22] 0 true [] = (Port 10001, [10001]).
Proof. vm_compute. reflexivity. Qed.
Example call_2 : get_next_port [10000] 0 true [10001] = (Port 10002, [10002; 10001]).
Proof. vm_compute. reflexivity. Qed.
Example two_calls : reach [10002; 10001]
    [ mkCall [10000] 0 true (Port 10002); mkCall [10000; 22] 0 true (Port 10001) ].
Proof.
  exact (r1 _ _ _ _ _ _ _ (r1 _ _ _ _ _ _ _ r0 (Z.le_refl 0) call_1) (Z.le_refl 0) call_2).
Qed.
(** All taken: the system reports the whole range. *)
Example all_taken : forall p, in_range p -> taken ALL [] p.
Proof. intros p H. left. now apply ALL_In. Qed.

Print Assumptions C29_free_port_or_failure.
Print Assumptions C29_never_twice.
Print Assumptions C29_every_free_port_possible.
