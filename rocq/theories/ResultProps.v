(** C12: coroutines in a returned tuple.

    Specification: the caller receives a tuple of the same length whose item [k]
    is the returned item [k], or the value its coroutine produced; if some
    coroutine fails, the call fails with the error of the first one (in tuple
    order). *)
From Coq Require Import List Arith Bool Lia.
From Verif Require Import ResultModel.
Import ListNotations.

(** ** Specification *)
Section Spec.
  Context {V E : Type}.
  Fixpoint spec_tuple (items : list (item V E)) : outcome E (list (option V)) :=
    match items with
    | [] => Ok []
    | Plain v :: l =>
        match spec_tuple l with Ok vs => Ok (Some v :: vs) | Raise x => Raise x end
    | CCoro (Raise x) :: _ | CGen (Raise x) :: _ => Raise x
    | CCoro (Ok v) :: l | CGen (Ok v) :: l =>
        match spec_tuple l with Ok vs => Ok (Some v :: vs) | Raise x => Raise x end
    end.

  Definition n_coros (items : list (item V E)) : nat := length (filter is_coro items).

  (** The coroutines are the first items of the tuple. *)
  Definition coros_first (items : list (item V E)) : Prop :=
    exists a b, items = a ++ b /\ forallb is_coro a = true /\ existsb is_coro b = false.
End Spec.

(** ** Proofs *)
Section Proofs.
  Context {V E : Type}.
  Implicit Types items : list (item V E).

  Lemma collect_fst : forall items i j, fst (collect i items) = fst (collect j items).
  Proof.
    induction items as [|x l IH]; simpl; intros i j; auto.
    specialize (IH (S i) (S j)).
    destruct (collect (S i) l), (collect (S j) l); simpl in *. destruct (coro_of x); simpl; congruence.
  Qed.

  Lemma collect_none : forall items i, existsb is_coro items = false -> collect i items = ([], []).
  Proof.
    induction items as [|x l IH]; simpl; intros i H; auto.
    apply orb_false_iff in H. destruct H as [H1 H2]. rewrite IH by auto.
    unfold is_coro in H1. now destruct (coro_of x).
  Qed.

  Lemma spec_none : forall items, existsb is_coro items = false ->
    spec_tuple items = Ok (values_of items).
  Proof.
    induction items as [|x l IH]; simpl; intros H; auto.
    apply orb_false_iff in H. destruct H as [H1 H2]. rewrite IH by auto.
    destruct x; simpl in *; try discriminate. reflexivity.
  Qed.

  Lemma collect_len : forall items i, length (fst (collect i items)) = n_coros items
    /\ length (snd (collect i items)) = n_coros items.
  Proof.
    unfold n_coros. induction items as [|x l IH]; simpl; intros i; auto.
    specialize (IH (S i)). destruct (collect (S i) l); simpl in *.
    destruct (is_coro x) eqn:Hx; unfold is_coro in Hx; destruct (coro_of x); try discriminate; simpl; lia.
  Qed.

  Lemma n_coros_zero : forall items, n_coros items = 0 -> existsb is_coro items = false.
  Proof.
    unfold n_coros. induction items as [|x l IH]; simpl; intros H; auto.
    destruct (is_coro x); simpl in *; [discriminate|auto].
  Qed.

  Lemma single : forall items o i poses, collect i items = ([o], poses) ->
    spec_tuple items = match o with
                       | Ok v => Ok (subst_single v (values_of items))
                       | Raise x => Raise x end.
  Proof.
    induction items as [|x l IH]; intros o i poses H; [discriminate|].
    simpl in H. destruct (collect (S i) l) as [cs ps] eqn:C.
    assert (Pl : forall v, spec_tuple (Plain v :: l) =
       match spec_tuple l with Ok vs => Ok (Some v :: vs) | Raise x => Raise x end) by reflexivity.
    destruct x as [v|o'|o']; simpl coro_of in H.
    - inversion H; subst. rewrite Pl. rewrite (IH _ _ _ C). destruct o; reflexivity.
    - inversion H; subst.
      assert (N : existsb is_coro l = false).
      { apply n_coros_zero. pose proof (collect_len l (S i)) as [L _]. rewrite C in L. simpl in L. congruence. }
      simpl. rewrite (spec_none _ N). destruct o; auto. f_equal. simpl. f_equal.
      clear - N. induction l as [|y l IH]; simpl; auto.
      simpl in N. apply orb_false_iff in N. destruct N as [N1 N2]. rewrite <- IH by auto.
      destruct y; simpl in *; try discriminate; auto.
    - inversion H; subst.
      assert (N : existsb is_coro l = false).
      { apply n_coros_zero. pose proof (collect_len l (S i)) as [L _]. rewrite C in L. simpl in L. congruence. }
      simpl. rewrite (spec_none _ N). destruct o; auto. f_equal. simpl. f_equal.
      clear - N. induction l as [|y l IH]; simpl; auto.
      simpl in N. apply orb_false_iff in N. destruct N as [N1 N2]. rewrite <- IH by auto.
      destruct y; simpl in *; try discriminate; auto.
  Qed.

  Lemma collect_prefix : forall (a b : list (item V E)) i, forallb is_coro a = true -> existsb is_coro b = false ->
    collect i (a ++ b) = (fst (collect 0 a), seq i (length a)).
  Proof.
    induction a as [|x a IH]; simpl; intros b i H1 H2.
    - now apply collect_none.
    - apply andb_true_iff in H1. destruct H1 as [Hx H1]. rewrite (IH b (S i) H1 H2).
      pose proof (collect_fst a 0 1). destruct (collect 1 a); simpl in *.
      unfold is_coro in Hx. destruct (coro_of x); [|discriminate]. simpl. congruence.
  Qed.

  Lemma set_nth_app : forall (p : list (option V)) x q v, set_nth (p ++ x :: q) (length p) v = p ++ v :: q.
  Proof. induction p; simpl; intros; auto. f_equal. apply IHp. Qed.

  Lemma fill_prefix : forall (a b : list (item V E)) tasks0 done,
    forallb is_coro a = true -> existsb is_coro b = false -> length tasks0 = length done ->
    fill (tasks0 ++ fst (collect 0 a)) (seq (length done) (length a)) (done ++ values_of (a ++ b))
    = match spec_tuple (a ++ b) with Ok vs => Ok (done ++ vs) | Raise x => Raise x end.
  Proof.
    induction a as [|x a IH]; intros b tasks0 done H1 H2 L.
    - simpl. rewrite spec_none by auto. reflexivity.
    - simpl in H1. apply andb_true_iff in H1. destruct H1 as [Hx H1].
      specialize (IH b).
      assert (C : exists o, coro_of x = Some o) by (unfold is_coro in Hx; destruct (coro_of x); eauto; discriminate).
      destruct C as [o C].
      assert (Sx : spec_tuple (x :: a ++ b) = match o with
          | Ok v => match spec_tuple (a ++ b) with Ok vs => Ok (Some v :: vs) | Raise e => Raise e end
          | Raise e => Raise e end).
      { destruct x as [v|o'|o']; simpl in C; inversion C; subst; simpl; destruct o; reflexivity. }
      assert (Vx : values_of ((x :: a) ++ b) = None :: values_of (a ++ b)).
      { destruct x; simpl in C; inversion C; reflexivity. }
      assert (Cx : fst (collect 0 (x :: a)) = o :: fst (collect 0 a)).
      { simpl. pose proof (collect_fst a 0 1). destruct (collect 1 a). simpl in *. rewrite C. simpl. congruence. }
      rewrite Cx, Vx. change ((x :: a) ++ b) with (x :: a ++ b). rewrite Sx.
      simpl length. simpl seq. simpl fill.
      rewrite nth_error_app2 by lia. replace (length done - length tasks0) with 0 by lia. simpl nth_error.
      destruct o as [v|e]; [|reflexivity].
      rewrite set_nth_app.
      replace (tasks0 ++ Ok v :: fst (collect 0 a)) with ((tasks0 ++ [Ok v]) ++ fst (collect 0 a))
        by (rewrite <- app_assoc; reflexivity).
      assert (L' : length (tasks0 ++ [Ok v]) = length (done ++ [Some v]))
        by (rewrite !app_length; simpl; lia).
      pose proof (IH (tasks0 ++ [Ok v]) (done ++ [Some v]) H1 H2 L') as F.
      rewrite (app_length done) in F. simpl length in F.
      replace (length done + 1) with (S (length done)) in F by lia.
      rewrite <- (app_assoc done) in F. simpl app in F. etransitivity; [exact F|].
      destruct (spec_tuple (a ++ b)); auto. now rewrite <- app_assoc.
  Qed.

  (** Positions are increasing, so position number k is at least k. *)
  Lemma poses_lower : forall items i k p, nth_error (snd (collect i items)) k = Some p -> i + k <= p.
  Proof.
    induction items as [|x l IH]; simpl; intros i k p H.
    - destruct k; discriminate.
    - specialize (IH (S i)). destruct (collect (S i) l) as [cs ps]. simpl in IH.
      destruct (coro_of x); simpl in H.
      + destruct k; simpl in H; [inversion H; lia|]. apply IH in H. lia.
      + apply IH in H. lia.
  Qed.

  Lemma last_pos_out : forall items i, ~ coros_first items -> 0 < n_coros items ->
    exists p, nth_error (snd (collect i items)) (n_coros items - 1) = Some p /\ i + n_coros items <= p.
  Proof.
    induction items as [|x l IH]; intros i NP Pos.
    - unfold n_coros in Pos. simpl in Pos. lia.
    - destruct (is_coro x) eqn:Hx.
      + assert (N : n_coros (x :: l) = S (n_coros l)) by (unfold n_coros; simpl; now rewrite Hx).
        assert (NP' : ~ coros_first l).
        { intros [a [b [Ea [Eb Ec]]]]. apply NP. exists (x :: a), b. subst. simpl. rewrite Hx, Eb. auto. }
        assert (P' : 0 < n_coros l).
        { destruct (n_coros l) eqn:Z; [|lia]. exfalso. apply NP'. exists [], l. repeat split.
          now apply n_coros_zero. }
        destruct (IH (S i) NP' P') as [p [H1 H2]]. exists p. rewrite N.
        split; [|lia]. simpl. destruct (collect (S i) l) as [cs ps]. simpl in *.
        unfold is_coro in Hx. destruct (coro_of x); [|discriminate]. simpl.
        replace (n_coros l - 0) with (S (n_coros l - 1)) by lia. exact H1.
      + assert (N : n_coros (x :: l) = n_coros l) by (unfold n_coros; simpl; now rewrite Hx).
        rewrite N in *.
        assert (L := collect_len l (S i)). destruct L as [_ L].
        destruct (nth_error (snd (collect (S i) l)) (n_coros l - 1)) as [p|] eqn:Q.
        * exists p. split; [|apply poses_lower in Q; lia].
          simpl. destruct (collect (S i) l) as [cs ps]. unfold is_coro in Hx.
          destruct (coro_of x); [discriminate|]. exact Q.
        * apply nth_error_None in Q. lia.
  Qed.

  Lemma fill_out : forall poses (tasks : list (outcome E V)) (vals : list (slot V)),
    (exists k p, nth_error poses k = Some p /\ length tasks <= p) ->
    exists x, fill tasks poses vals = Raise x /\
      (x = IndexErr \/ exists k, nth_error tasks k = Some (Raise x)).
  Proof.
    induction poses as [|q poses IH]; intros tasks vals [k [p [H L]]].
    - destruct k; discriminate.
    - simpl. destruct (nth_error tasks q) as [[v|x]|] eqn:Q.
      + destruct k; simpl in H.
        * inversion H; subst. apply nth_error_None in L. congruence.
        * apply IH. eauto.
      + exists x. split; auto. right. eauto.
      + exists IndexErr. split; auto.
  Qed.

  Lemma collect_outcomes : forall items i k o, nth_error (fst (collect i items)) k = Some o ->
    exists it, In it items /\ coro_of it = Some o.
  Proof.
    induction items as [|x l IH]; simpl; intros i k o H.
    - destruct k; discriminate.
    - specialize (IH (S i)). destruct (collect (S i) l) as [cs ps]. simpl in IH.
      destruct (coro_of x) eqn:C; simpl in H.
      + destruct k; simpl in H.
        * inversion H; subst. exists x. auto.
        * destruct (IH _ _ H) as [it [I1 I2]]. exists it. auto.
      + destruct (IH _ _ H) as [it [I1 I2]]. exists it. auto.
  Qed.
End Proofs.

(** ** Theorems *)

(** The claim at full strength, for reference. *)
Definition C12_claim : Prop :=
  forall (V E : Type) (items : list (item V E)),
    handle_result false (RTuple items) = wrap (spec_tuple items).

(** Partial: it holds when there is at most one coroutine, or the coroutines are
    the first items of the tuple. *)
Theorem C12_tuple_partial :
  forall (V E : Type) (items : list (item V E)),
    n_coros items <= 1 \/ coros_first items ->
    handle_result false (RTuple items) = wrap (spec_tuple items).
Proof.
  intros V E items H. simpl. f_equal. unfold handle_tuple.
  destruct (collect 0 items) as [coros poses] eqn:C.
  pose proof (collect_len items 0) as [L _]. rewrite C in L. simpl in L.
  destruct coros as [|o [|o2 coros]].
  - symmetry. apply spec_none. apply n_coros_zero. now rewrite <- L.
  - symmetry. eapply single; eauto.
  - destruct H as [H|[a [b [Eab [Ha Hb]]]]]; [simpl in L; lia|].
    subst items. rewrite (collect_prefix a b 0 Ha Hb) in C. injection C as C1 C2. subst poses.
    pose proof (fill_prefix a b [] [] Ha Hb eq_refl) as F. simpl in F. rewrite C1 in F. rewrite F.
    destruct (spec_tuple (a ++ b)); reflexivity.
Qed.

(** The same for an [async] method returning the tuple. *)
Theorem C12_async_tuple_partial :
  forall (V E : Type) (items : list (item V E)),
    n_coros items <= 1 \/ coros_first items ->
    handle_result false (RAwait (Ok (RTuple items))) = wrap (spec_tuple items).
Proof. intros. exact (C12_tuple_partial V E items H). Qed.

(** In every other case the call fails: with IndexError even if all coroutines
    succeed.  It never returns a wrong tuple. *)
Theorem C12_otherwise_fails :
  forall (V E : Type) (items : list (item V E)),
    1 < n_coros items -> ~ coros_first items ->
    exists x, handle_result false (RTuple items) = Raise x /\
      (x = IndexErr \/ exists it, In it items /\ coro_of it = Some (Raise x)).
Proof.
  intros V E items H NP. simpl. unfold handle_tuple.
  destruct (last_pos_out items 0 NP ltac:(lia)) as [p [P1 P2]].
  pose proof (collect_len items 0) as [L _].
  pose proof (collect_outcomes items 0) as CO.
  destruct (collect 0 items) as [coros poses] eqn:C. simpl in *.
  destruct (fill_out poses coros (values_of items)) as [x [F Fx]].
  { exists (n_coros items - 1), p. split; auto. lia. }
  exists x. destruct coros as [|o [|o2 coros]]; simpl in L; try lia. rewrite F.
  split; auto. destruct Fx as [Fx|[k Fx]]; auto. right. eauto.
Qed.

Theorem C12_tuple_refuted : ~ C12_claim.
Proof.
  intros H. specialize (H nat nat [Plain 1; CCoro (Ok 2); CCoro (Ok 3)]). discriminate.
Qed.

(** A cancelled call is never answered with a value (two or more coroutines). *)
Theorem C12_cancelled_raises :
  forall (V E : Type) (items : list (item V E)),
    1 < n_coros items -> exists x, handle_result true (RTuple items) = Raise x.
Proof.
  intros V E items H. simpl. unfold handle_tuple.
  pose proof (collect_len items 0) as [L _]. destruct (collect 0 items) as [coros poses].
  simpl in L. destruct coros as [|o [|o2 coros]]; simpl in L; try lia.
  destruct (fill (o :: o2 :: coros) poses (values_of items)); simpl; eauto.
Qed.

Example C12_ok : handle_result false
  (RTuple [CCoro (Ok 5); CGen (Ok 6); Plain 7; Plain 8]) = Ok (E:=nat) (Tuple [Some 5; Some 6; Some 7; Some 8]).
Proof. reflexivity. Qed.
Example C12_ok_single : handle_result false
  (RTuple [Plain 7; CCoro (Ok 5); Plain 8]) = Ok (E:=nat) (Tuple [Some 7; Some 5; Some 8]).
Proof. reflexivity. Qed.
Example C12_bad_case : 1 < n_coros (V:=nat) (E:=nat) [Plain 1; CCoro (Ok 2); CCoro (Ok 3)]
  /\ ~ coros_first (V:=nat) (E:=nat) [Plain 1; CCoro (Ok 2); CCoro (Ok 3)].
Proof.
  split; [unfold n_coros; simpl; lia|]. intros [a [b [H [Ha Hb]]]].
  destruct a as [|x a]; simpl in *.
  - subst b. discriminate.
  - inversion H; subst. discriminate.
Qed.

Print Assumptions C12_tuple_partial.
Print Assumptions C12_async_tuple_partial.
Print Assumptions C12_otherwise_fails.
Print Assumptions C12_tuple_refuted.
Print Assumptions C12_cancelled_raises.
