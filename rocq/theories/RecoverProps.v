(** C38: a lost sub pool is restarted with its actors. *)
From Coq Require Import List Bool Arith Lia.
From Verif Require Import Dict RecoverModel.
Import ListNotations.

Lemma keqb_spec : forall x y, reflect (x = y) (keqb x y).
Proof.
  destruct x as [x|], y as [y|]; simpl; try (constructor; congruence).
  destruct (Nat.eqb_spec x y); constructor; congruence.
Qed.

(** What the history says is recorded: the arguments with which actor [u] was
    last recorded and not forgotten since. *)
Fixpoint recorded_by (os : list dop) (cur : nat -> option nat) : nat -> option nat :=
  match os with
  | [] => cur
  | Record_ u x :: os' => recorded_by os' (fun v => if Nat.eqb v u then Some x else cur v)
  | Forget u :: os' => recorded_by os' (fun v => if Nat.eqb v u then None else cur v)
  | _ :: os' => recorded_by os' cur
  end.
Definition recorded (os : list dop) : nat -> option nat := recorded_by os (fun _ => None).

(** A creation is in progress at this address: a placeholder was set and not
    cleared since. *)
Fixpoint creating_by (os : list dop) (b : bool) : bool :=
  match os with
  | [] => b
  | Place _ _ :: os' => creating_by os' true
  | Unplace :: os' => creating_by os' false
  | _ :: os' => creating_by os' b
  end.
Definition creating (os : list dop) : bool := creating_by os false.

Record Inv (d : entries) (cur : nat -> option nat) (b : bool) : Prop := {
  i_nd : NoDup (gkeys d);
  i_rec : forall u m, gget keqb d (Some u) = Some m <->
            exists x, cur u = Some x /\ m = {| m_uid := u; m_args := x; m_from_main := true |};
  i_pl : b = match gget keqb d None with Some _ => true | None => false end
}.

Lemma inv_run : forall os d cur b, Inv d cur b ->
  Inv (fold_left dapply os d) (recorded_by os cur) (creating_by os b).
Proof.
  induction os as [|o os IH]; simpl; intros d cur b I; auto.
  destruct I as [ND R P]. destruct o as [u x| |u x|u]; apply IH; constructor; simpl.
  - apply (NoDup_gset _ keqb_spec); auto.
  - intros v m. rewrite (gget_gset _ keqb_spec). simpl. apply R.
  - rewrite (gget_gset _ keqb_spec). reflexivity.
  - apply (NoDup_gdel _ keqb_spec); auto.
  - intros v m. rewrite (gget_gdel _ keqb_spec). simpl. apply R.
  - rewrite (gget_gdel _ keqb_spec). reflexivity.
  - apply (NoDup_gset _ keqb_spec); auto.
  - intros v m. rewrite (gget_gset _ keqb_spec). simpl. rewrite (Nat.eqb_sym v u).
    destruct (Nat.eqb_spec u v); [|apply R]. subst. split.
    + intros H. inversion H. eauto.
    + intros [y [H1 H2]]. inversion H1; subst. reflexivity.
  - rewrite (gget_gset _ keqb_spec). simpl. auto.
  - apply (NoDup_gdel _ keqb_spec); auto.
  - intros v m. rewrite (gget_gdel _ keqb_spec). simpl. rewrite (Nat.eqb_sym v u).
    destruct (Nat.eqb_spec u v); [|apply R]. split; [discriminate|]. intros [y [H _]]. discriminate.
  - rewrite (gget_gdel _ keqb_spec). simpl. auto.
Qed.
Lemma reach : forall os, Inv (directory os) (recorded os) (creating os).
Proof.
  intros. apply inv_run. constructor; simpl; auto.
  - constructor.
  - intros. split; [discriminate|]. intros [x [H _]]. discriminate.
Qed.

Lemma replay_const : forall d f i, f + i > length d -> replay f (fun _ => d) i = (skipn i (map snd d), true).
Proof.
  intros d. induction f as [|f IH]; simpl; intros i H.
  - rewrite skipn_all2; auto. rewrite map_length. lia.
  - rewrite Nat.eqb_refl. destruct (nth_error d i) as [[k m]|] eqn:E.
    + rewrite IH; [|lia]. f_equal.
      assert (E' : nth_error (map snd d) i = Some m) by (now rewrite nth_error_map, E).
      clear - E'. revert i E'. induction (map snd d) as [|x l IHl]; destruct i; simpl; intros; try discriminate.
      * inversion E'. reflexivity.
      * apply IHl; auto.
    + apply nth_error_None in E. rewrite skipn_all2; auto. rewrite map_length. lia.
Qed.

Lemma fold_create : forall ms reg, NoDup (map m_uid ms) ->
  (forall m, In m ms -> gget Nat.eqb reg (m_uid m) = None) ->
  forall u, gget Nat.eqb (fold_left create_in ms reg) u =
    match find (fun m => Nat.eqb (m_uid m) u) ms with
    | Some m => Some (m_args m)
    | None => gget Nat.eqb reg u
    end.
Proof.
  induction ms as [|m ms IH]; simpl; intros reg ND F u; auto.
  inversion ND as [|? ? N1 N2]; subst. rewrite IH; auto.
  - unfold create_in. rewrite (F m); auto. destruct (Nat.eqb_spec (m_uid m) u).
    + subst. destruct (find _ ms) as [m'|] eqn:Q.
      * apply find_some in Q. destruct Q as [Q1 Q2]. apply Nat.eqb_eq in Q2.
        exfalso. apply N1. rewrite <- Q2. now apply in_map.
      * rewrite (gget_gset _ Nat.eqb_spec), Nat.eqb_refl. reflexivity.
    + destruct (find _ ms); auto. rewrite (gget_gset _ Nat.eqb_spec).
      destruct (Nat.eqb_spec (m_uid m) u); congruence.
  - intros m' H. unfold create_in. rewrite (F m); auto. rewrite (gget_gset _ Nat.eqb_spec).
    destruct (Nat.eqb_spec (m_uid m) (m_uid m')); auto.
    exfalso. apply N1. rewrite e. now apply in_map.
Qed.

(** With auto_recover = "actor": if no creation is in progress at the address and
    the entries do not change during the recovery, every recorded actor is created
    again with its arguments, by exactly one message, and nothing else is. *)
Theorem C38_recovered_partial : forall os, creating os = false ->
  let '(d, sent, reg) := on_lost RecoverActor (directory os) (fun _ => directory os) in
  d = directory os /\
  (forall u x, (exists m, In m sent /\ m_uid m = u /\ m_args m = x) <-> recorded os u = Some x) /\
  NoDup (map m_uid sent) /\
  (exists r, reg = Some r /\ forall u, gget Nat.eqb r u = recorded os u).
Proof.
  intros os NC. destruct (reach os) as [ND R P]. rewrite NC in P.
  unfold on_lost. simpl process_sub_pool_lost. rewrite replay_const; [|lia]. simpl skipn.
  assert (NN : gget keqb (directory os) None = None) by (destruct (gget keqb (directory os) None); congruence).
  assert (F : forall k m, In (k, m) (directory os) ->
     exists x, recorded os (m_uid m) = Some x /\ k = Some (m_uid m) /\ m_args m = x).
  { intros k m H. apply (gIn_get _ keqb_spec) in H; auto. destruct k as [u|]; [|congruence].
    apply R in H. destruct H as [x [H1 H2]]. subst m. simpl. eauto. }
  assert (M : forall u x, (exists m, In m (map snd (directory os)) /\ m_uid m = u /\ m_args m = x) <-> recorded os u = Some x).
  { intros u x. split.
    - intros [m [H [E1 E2]]]. apply in_map_iff in H. destruct H as [[k m'] [E H]]. simpl in E. subst m'.
      destruct (F k m H) as [y [F1 [F2 F3]]]. congruence.
    - intros H. assert (G : gget keqb (directory os) (Some u) = Some {| m_uid := u; m_args := x; m_from_main := true |})
        by (apply R; eauto).
      apply (gget_In _ keqb_spec) in G. eexists. split; [apply (in_map snd) in G; exact G|]. auto. }
  assert (U : NoDup (map m_uid (map snd (directory os)))).
  { clear M NN P R. revert ND F. induction (directory os) as [|[k m] l IH]; simpl; intros ND F; constructor.
    - inversion ND as [|? ? N1 N2]; subst. intros H. apply in_map_iff in H. destruct H as [m' [E H]].
      apply in_map_iff in H. destruct H as [[k' m''] [E' H]]. simpl in E'. subst m''.
      destruct (F k m (or_introl eq_refl)) as [x [_ [Fk _]]].
      destruct (F k' m' (or_intror H)) as [x' [_ [Fk' _]]].
      apply N1. apply (in_map fst) in H. simpl in H. subst k k'. rewrite E in H. exact H.
    - inversion ND; subst. apply IH; auto. }
  split; [reflexivity|]. split; [exact M|]. split; [exact U|].
  eexists. split; [reflexivity|]. intros u. rewrite fold_create; auto.
  destruct (find (fun m => Nat.eqb (m_uid m) u) (map snd (directory os))) as [m|] eqn:Q.
  - apply find_some in Q. destruct Q as [Q1 Q2]. apply Nat.eqb_eq in Q2. symmetry. apply M. eauto.
  - destruct (recorded os u) as [x|] eqn:E; [|reflexivity]. exfalso. apply M in E.
    destruct E as [m [E1 [E2 E3]]]. pose proof (find_none _ _ Q m E1) as N. simpl in N.
    rewrite E2, Nat.eqb_refl in N. discriminate.
Qed.

(** Without recovery of actors the entries of the pool are emptied and nothing is
    created. *)
Theorem C38_not_recovered : forall mode os seen, mode <> RecoverActor ->
  let '(d, sent, reg) := on_lost mode (directory os) seen in d = [] /\ sent = [].
Proof. intros [] os seen H; simpl; try congruence; auto. Qed.

(** The full claim: also with creations in progress. *)
Definition C38_claim : Prop := forall os seen,
  let '(d, sent, reg) := on_lost RecoverActor (directory os) seen in
  forall u x, (exists m, In m sent /\ m_uid m = u /\ m_args m = x) <-> recorded os u = Some x.

(** The message of a creation that was in progress when the pool died (and that
    its caller sees fail) is replayed too, ... *)
Theorem C38_placeholder_refuted : ~ C38_claim.
Proof.
  intros H. specialize (H [Record_ 1 10; Place 2 20] (fun _ => directory [Record_ 1 10; Place 2 20]) 2 20).
  destruct H as [H _]. assert (X : recorded [Record_ 1 10; Place 2 20] 2 = Some 20).
  { apply H. eexists. split; [right; left; reflexivity|]. auto. }
  discriminate.
Qed.
(** ... and a creation that starts at the address while the actors are being
    re-created ends the loop: the remaining actors are not created again. *)
Theorem C38_interrupted_refuted :
  let os := [Record_ 1 10; Record_ 2 20] in
  let seen := fun i => match i with 0 => directory os | _ => directory (os ++ [Place 3 30]) end in
  let '(_, sent, reg) := on_lost RecoverActor (directory os) seen in
  recorded os 2 = Some 20 /\ map m_uid sent = [1] /\ reg = Some [(1, 10)].
Proof. repeat split. Qed.

Example demo :
  let os := [Place 1 10; Record_ 1 10; Unplace; Record_ 2 20; Forget 1; Record_ 3 30; Record_ 1 11] in
  creating os = false /\ recorded os 1 = Some 11 /\
  snd (on_lost RecoverActor (directory os) (fun _ => directory os)) = Some [(2, 20); (3, 30); (1, 11)].
Proof. repeat split. Qed.

Print Assumptions C38_recovered_partial.
Print Assumptions C38_not_recovered.
Print Assumptions C38_placeholder_refuted.
Print Assumptions C38_interrupted_refuted.
