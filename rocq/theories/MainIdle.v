(** The additional invariant for IdleLabel. *)
From Coq Require Import List Bool Arith Lia.
From Verif Require Import Base Dict MainModel MainProofs.
Import ListNotations.

Section Idle.
  Variable addrs : list nat.
  Variable slots : nat -> list nat.
  Notation step := (step addrs slots).
  Notation main_destroy := (main_destroy addrs).

  Definition creating (st : state) (a : nat) : Prop :=
    exists i u s r, dget (tasks st) i = Some (TCreate a u s r).

  (** Calm as far as IdleLabel is concerned; explained in MainProps. *)
  Definition calm_idle (st : state) (e : event) : Prop :=
    match e with
    | Create s u => forall a, pick slots (dir st) s = Some a -> ~ creating st a
    | SubCreate a u s o => forall m, s <> Idle m
    | _ => True
    end.

  Notation look st k := (gget seqb (dir st) k).

  Record II (st : state) : Prop := {
    d_nd : NoDup (gkeys (dir st));
    d_place : forall a s, look st (a, None) = Some s <->
                exists i u r, dget (tasks st) i = Some (TCreate a u s r);
    d_one : forall i j a u s r u' s' r', dget (tasks st) i = Some (TCreate a u s r) ->
              dget (tasks st) j = Some (TCreate a u' s' r') -> i = j;
    d_excl : forall a k k' m, look st (a, k) = Some (Idle m) -> look st (a, k') = Some (Idle m) -> k = k';
    d_notify : forall i a u m, dget (tasks st) i <> Some (TNotifyCreate a u (Idle m))
  }.

  Lemma occupied_iff : forall d m a, NoDup (gkeys d) ->
    (occupied d m a = true <-> exists k, gget seqb d (a, k) = Some (Idle m)).
  Proof.
    intros d m a ND. unfold occupied. rewrite existsb_exists. split.
    - intros [[[b k] s] [I E]]. simpl in E. apply andb_true_iff in E. destruct E as [E1 E2].
      apply Nat.eqb_eq in E1. subst b. destruct s as [c|m']; simpl in E2; [discriminate|].
      apply Nat.eqb_eq in E2. subst m'. exists k. apply (gIn_get _ seqb_spec); auto.
    - intros [k H]. exists ((a, k), Idle m). split; [apply (gget_In _ seqb_spec); auto|].
      simpl. now rewrite !Nat.eqb_refl.
  Qed.

  Lemma seqb_refl : forall k, seqb k k = true.
  Proof. intros. destruct (seqb_spec k k); congruence. Qed.

  (** Steps that touch no creation task and only remove idle entries. *)
  Lemma II_shrink : forall st st',
    II st -> NoDup (gkeys (dir st')) ->
    (forall a, look st' (a, None) = look st (a, None)) ->
    (forall k m, look st' k = Some (Idle m) -> look st k = Some (Idle m)) ->
    (forall i a u s r, dget (tasks st') i = Some (TCreate a u s r) <-> dget (tasks st) i = Some (TCreate a u s r)) ->
    (forall i a u m, dget (tasks st') i <> Some (TNotifyCreate a u (Idle m))) ->
    II st'.
  Proof.
    intros st st' [N P O X F] N' L S T F'. constructor; auto.
    - intros a s. rewrite L, P. split; intros [i [u [r H]]]; exists i, u, r; apply T; auto.
    - intros i j a u s r u' s' r' H H'. apply T in H. apply T in H'. eapply O; eauto.
    - intros a k k' m H H'. eapply X; eauto.
  Qed.

  Lemma main_destroy_idle : forall st a u, II st ->
    (forall i t, dget (tasks st) i = Some t -> i < next st) -> II (fst (main_destroy st a u)).
  Proof.
    intros st a u I NX. unfold main_destroy. destruct (actor_ref addrs st a u) as [b|]; [|exact I].
    simpl. apply (II_shrink st); auto; simpl.
    - destruct (Nat.eqb b 0); [apply I|]. apply (NoDup_gdel _ seqb_spec). apply I.
    - intros c. destruct (Nat.eqb b 0); auto. rewrite (gget_gdel _ seqb_spec).
      destruct (seqb_spec (b, Some u) (c, None)); [discriminate|auto].
    - intros k m. destruct (Nat.eqb b 0); auto. rewrite (gget_gdel _ seqb_spec).
      destruct (seqb (b, Some u) k); [discriminate|auto].
    - intros i c v s r. rewrite dget_dset. destruct (Nat.eqb_spec (next st) i); [|tauto].
      split; intros H; [discriminate|]. apply NX in H. lia.
    - intros i c v m. rewrite dget_dset. destruct (Nat.eqb_spec (next st) i); [discriminate|].
      apply (d_notify _ I).
  Qed.

  Lemma end_task_next : forall (ts : dict task) n i, (forall j t, dget ts j = Some t -> j < n) ->
    forall j t, dget (ddel ts i) j = Some t -> j < n.
  Proof. intros ts n i H j t. rewrite dget_ddel. destruct (Nat.eqb i j); [discriminate|eauto]. Qed.

  Lemma idle_step : forall st e, II st ->
    (forall i t, dget (tasks st) i = Some t -> i < next st) ->
    calm_event addrs slots st e -> calm_idle st e -> II (fst (step st e)).
  Proof.
    intros st e I NX C D. pose proof I as [ND PL ON EX NF].
    destruct e as [s u|i o|i|i|a u|i ok|a u s o|a u ok|i]; simpl in C, D; cbn [MainModel.step].
    - (* Create *)
      destruct (pick slots (dir st) s) as [a|] eqn:P; [|exact I].
      destruct (existsb (Nat.eqb a) addrs); [|exact I]. specialize (D a eq_refl). simpl.
      assert (NOP : look st (a, None) = None).
      { destruct (look st (a, None)) as [s'|] eqn:L; auto. exfalso. apply PL in L.
        destruct L as [i [v [r L]]]. apply D. exists i, v, s', r. auto. }
      assert (NEW : forall m, s = Idle m -> forall k, look st (a, k) <> Some (Idle m)).
      { intros m -> k L. simpl in P. apply find_some in P. destruct P as [_ P].
        apply negb_true_iff in P. assert (Q : occupied (dir st) m a = true).
        { apply occupied_iff; auto. eauto. }
        congruence. }
      constructor; simpl.
      + apply (NoDup_gset _ seqb_spec); auto.
      + intros b s'. rewrite (gget_gset _ seqb_spec). destruct (seqb_spec (a, None) (b, None)) as [E|E].
        * inversion E; subst b. split.
          -- intros H. inversion H; subst. exists (next st), u, None. apply dget_dset_eq.
          -- intros [i [v [r H]]]. rewrite dget_dset in H. destruct (Nat.eqb_spec (next st) i).
             ++ inversion H; auto.
             ++ exfalso. apply D. exists i, v, s', r. auto.
        * rewrite PL. split; intros [i [v [r H]]].
          -- exists i, v, r. rewrite dget_dset. destruct (Nat.eqb_spec (next st) i); auto. apply NX in H. lia.
          -- rewrite dget_dset in H. destruct (Nat.eqb_spec (next st) i); [inversion H; subst; congruence|].
             exists i, v, r. auto.
      + intros i j b v s1 r v' s' r' H H'. rewrite dget_dset in H, H'.
        destruct (Nat.eqb_spec (next st) i), (Nat.eqb_spec (next st) j); subst; auto.
        * inversion H; subst. exfalso. apply D. exists j, v', s', r'. auto.
        * inversion H'; subst. exfalso. apply D. exists i, v, s1, r. auto.
        * eapply ON; eauto.
      + intros b k k' m. rewrite !(gget_gset _ seqb_spec).
        destruct (seqb_spec (a, None) (b, k)) as [E|E], (seqb_spec (a, None) (b, k')) as [E'|E'].
        * inversion E; inversion E'; congruence.
        * intros H H'. inversion E; subst. inversion H; subst. exfalso. eapply NEW; eauto.
        * intros H H'. inversion E'; subst. inversion H'; subst. exfalso. eapply NEW; eauto.
        * apply EX.
      + intros i b v m. rewrite dget_dset. destruct (Nat.eqb_spec (next st) i); [discriminate|apply NF].
    - (* RunCreate *)
      destruct (dget (tasks st) i) as [[a u s [r|]|a u|a u s|a u]|] eqn:T; try exact I.
      destruct (pool_create (live st) a u s o) as [l ok]. simpl.
      constructor; simpl; auto.
      + intros b s'. rewrite PL. split; intros [j [v [r H]]].
        * destruct (Nat.eq_dec i j).
          -- subst j. rewrite T in H. inversion H; subst. exists i, v, (Some ok). apply dget_dset_eq.
          -- exists j, v, r. rewrite dget_dset_neq; auto.
        * rewrite dget_dset in H. destruct (Nat.eqb_spec i j).
          -- inversion H; subst. exists j, v, None. auto.
          -- exists j, v, r. auto.
      + intros j j' b v s1 r v' s' r' H H'. rewrite dget_dset in H, H'.
        destruct (Nat.eqb_spec i j), (Nat.eqb_spec i j'); subst; auto.
        * inversion H; subst. eapply ON; eauto.
        * inversion H'; subst. eapply ON; eauto.
        * eapply ON; eauto.
      + intros j b v m. rewrite dget_dset. destruct (Nat.eqb i j); [discriminate|apply NF].
    - (* EndCreate *)
      destruct (dget (tasks st) i) as [[a u s [ok|]|a u|a u s|a u]|] eqn:T; try exact I.
      assert (HP : look st (a, None) = Some s) by (apply PL; eauto).
      assert (LK : forall k, gget seqb (gdel seqb (if ok then gset seqb (dir st) (a, Some u) s else dir st) (a, None)) k
                 = if seqb (a, None) k then None
                   else if ok && seqb (a, Some u) k then Some s else look st k).
      { intros k. rewrite (gget_gdel _ seqb_spec). destruct (seqb (a, None) k); auto.
        destruct ok; auto. rewrite (gget_gset _ seqb_spec). reflexivity. }
      simpl. constructor; simpl.
      + apply (NoDup_gdel _ seqb_spec). destruct ok; auto. apply (NoDup_gset _ seqb_spec); auto.
      + intros b s'. rewrite LK.
        assert (Z : seqb (a, Some u) (b, None) = false) by (destruct (seqb_spec (a, Some u) (b, None)); congruence).
        rewrite Z, andb_false_r. destruct (seqb_spec (a, None) (b, None)) as [E|E].
        * inversion E; subst b. split; [discriminate|]. intros [j [v [r H]]]. rewrite dget_ddel in H.
          destruct (Nat.eqb_spec i j); [discriminate|]. exfalso. apply n. eapply ON; eauto.
        * rewrite PL. split; intros [j [v [r H]]].
          -- exists j, v, r. rewrite dget_ddel. destruct (Nat.eqb_spec i j); auto. subst. congruence.
          -- rewrite dget_ddel in H. destruct (Nat.eqb_spec i j); [discriminate|]. exists j, v, r. auto.
      + intros j j' b v s1 r v' s' r' H H'. rewrite dget_ddel in H, H'.
        destruct (Nat.eqb_spec i j); [discriminate|]. destruct (Nat.eqb_spec i j'); [discriminate|].
        eapply ON; eauto.
      + intros b k k' m. rewrite !LK.
        destruct (seqb_spec (a, None) (b, k)) as [|E0]; [discriminate|].
        destruct (seqb_spec (a, None) (b, k')) as [|E0']; [discriminate|].
        destruct ok; simpl.
        * destruct (seqb_spec (a, Some u) (b, k)) as [E|E], (seqb_spec (a, Some u) (b, k')) as [E'|E'].
          -- inversion E; inversion E'; congruence.
          -- intros H H'. inversion E; subst. inversion H; subst.
             exfalso. apply E0'. f_equal. eapply EX; eauto.
          -- intros H H'. inversion E'; subst. inversion H'; subst.
             exfalso. apply E0. f_equal. eapply EX; eauto.
          -- apply EX.
        * apply EX.
      + intros j b v m. rewrite dget_ddel. destruct (Nat.eqb i j); [discriminate|apply NF].
    - contradiction.
    - (* Destroy *) now apply main_destroy_idle.
    - (* RunDestroy *)
      destruct (dget (tasks st) i) as [[a u s [r|]|a u|a u s|a u]|] eqn:T; try exact I.
      destruct (pool_destroy (live st) a u ok) as [l done]. simpl.
      apply (II_shrink st); auto; simpl.
      + destruct (Nat.eqb a 0 && done); auto. apply (NoDup_gdel _ seqb_spec); auto.
      + intros c. destruct (Nat.eqb a 0 && done); auto. rewrite (gget_gdel _ seqb_spec).
        destruct (seqb_spec (a, Some u) (c, None)); [discriminate|auto].
      + intros k m. destruct (Nat.eqb a 0 && done); auto. rewrite (gget_gdel _ seqb_spec).
        destruct (seqb (a, Some u) k); [discriminate|auto].
      + intros j c v s r. rewrite dget_ddel. destruct (Nat.eqb_spec i j); [|tauto].
        split; intros H; [discriminate|]. subst. congruence.
      + intros j c v m. rewrite dget_ddel. destruct (Nat.eqb i j); [discriminate|apply NF].
    - (* SubCreate *)
      destruct (pool_create (live st) a u s o) as [l ok]. simpl.
      apply (II_shrink st); auto; simpl.
      + intros j c v s' r. rewrite dget_dset. destruct (Nat.eqb_spec (next st) j); [|tauto].
        split; intros H; [discriminate|]. apply NX in H. lia.
      + intros j c v m. rewrite dget_dset. destruct (Nat.eqb (next st) j); [|apply NF].
        intros H. inversion H; subst. eapply D; eauto.
    - (* SubDestroy *)
      destruct (pool_destroy (live st) a u ok) as [l done]. destruct done; simpl.
      + apply (II_shrink st); auto; simpl.
        * intros j c v s r. rewrite dget_dset. destruct (Nat.eqb_spec (next st) j); [|tauto].
          split; intros H; [discriminate|]. apply NX in H. lia.
        * intros j c v m. rewrite dget_dset. destruct (Nat.eqb (next st) j); [discriminate|apply NF].
      + apply (II_shrink st); auto; simpl; tauto.
    - (* Notify *)
      destruct (dget (tasks st) i) as [[a u s [r|]|a u|a u s|a u]|] eqn:T; try exact I.
      + simpl. destruct (existsb (Nat.eqb a) addrs).
        * assert (SN : forall m, s <> Idle m) by (intros m ->; eapply NF; eauto).
          apply (II_shrink st); auto; simpl.
          -- apply (NoDup_gset _ seqb_spec); auto.
          -- intros c. rewrite (gget_gset _ seqb_spec).
             destruct (seqb_spec (a, Some u) (c, None)); [discriminate|auto].
          -- intros k m. rewrite (gget_gset _ seqb_spec). destruct (seqb (a, Some u) k); auto.
             intros H. inversion H; subst. exfalso. eapply SN; eauto.
          -- intros j c v s' r. rewrite dget_ddel. destruct (Nat.eqb_spec i j); [|tauto].
             split; intros H; [discriminate|]. subst. congruence.
          -- intros j c v m. rewrite dget_ddel. destruct (Nat.eqb i j); [discriminate|apply NF].
        * apply (II_shrink st); auto; simpl.
          -- intros j c v s' r. rewrite dget_ddel. destruct (Nat.eqb_spec i j); [|tauto].
             split; intros H; [discriminate|]. subst. congruence.
          -- intros j c v m. rewrite dget_ddel. destruct (Nat.eqb i j); [discriminate|apply NF].
      + cbn [fst]. apply main_destroy_idle.
        * apply (II_shrink st); auto; simpl.
          -- intros j c v s' r. rewrite dget_ddel. destruct (Nat.eqb_spec i j); [|tauto].
             split; intros H; [discriminate|]. subst. congruence.
          -- intros j c v m. rewrite dget_ddel. destruct (Nat.eqb i j); [discriminate|apply NF].
        * simpl. now apply end_task_next.
  Qed.

  Lemma idle_init : II init.
  Proof.
    constructor; simpl; try discriminate.
    - constructor.
    - intros a s. split; [discriminate|]. intros [i [u [r H]]]. discriminate.
  Qed.
  Lemma inv_init : Inv addrs init.
  Proof.
    constructor; simpl; [discriminate|]. intros u. constructor; simpl; try discriminate.
    exists None. split; [discriminate|]. simpl. intros a. reflexivity.
  Qed.
End Idle.
