(** Invariants of the main pool's directory under calm histories. *)
From Coq Require Import List Bool Arith Lia.
From Verif Require Import Base Dict MainModel.
Import ListNotations.

Lemma aeqb_spec : forall x y, reflect (x = y) (aeqb x y).
Proof.
  intros [a b] [c d]. unfold aeqb; simpl.
  destruct (Nat.eqb_spec a c), (Nat.eqb_spec b d); simpl; constructor; congruence.
Qed.
Lemma seqb_spec : forall x y, reflect (x = y) (seqb x y).
Proof.
  intros [a [b|]] [c [d|]]; unfold seqb; simpl; destruct (Nat.eqb_spec a c); simpl;
    try (destruct (Nat.eqb_spec b d); simpl); constructor; congruence.
Qed.

Definition task_uid (t : task) : nat :=
  match t with
  | TCreate _ u _ _ | TDestroy _ u | TNotifyCreate _ u _ | TNotifyDestroy _ u => u
  end.

(** No operation on [u] is in progress. *)
Definition quiet (st : state) (u : nat) : Prop :=
  forall i t, dget (tasks st) i = Some t -> task_uid t <> u.

Section Inv.
  Variable addrs : list nat.
  Variable slots : nat -> list nat.
  Notation step := (step addrs slots).

  (** Calm histories; explained in MainProps. *)
  Definition calm_event (st : state) (e : event) : Prop :=
    match e with
    | Create s u =>
        quiet st u /\
        forall a b s', pick slots (dir st) s = Some a -> alive (live st) b u = Some s' -> b = a
    | RunCreate _ o => o <> HookFails
    | LoseCreate _ => False
    | Destroy _ u => quiet st u
    | RunDestroy _ ok => ok = true
    | SubCreate a u s o =>
        quiet st u /\ o = Made /\ In a addrs /\ a <> 0 /\ forall b, alive (live st) b u = None
    | SubDestroy a u _ => quiet st u /\ a <> 0
    | EndCreate _ | Notify _ => True
    end.

  Definition sync (r al : nat -> option strat) : Prop := forall a, r a = al a.
  Definition nowhere (f : nat -> option strat) : Prop := forall a, f a = None.
  Definition only (f : nat -> option strat) (a : nat) : Prop := forall b s, f b = Some s -> b = a.

  Definition phase (r al : nat -> option strat) (t : option task) : Prop :=
    match t with
    | None => sync r al
    | Some (TCreate a _ s None) => sync r al /\ only al a /\ In a addrs
    | Some (TCreate a _ s (Some true)) => nowhere r /\ al a = Some s /\ In a addrs
    | Some (TCreate a _ s (Some false)) => sync r al
    | Some (TDestroy a _) => if Nat.eqb a 0 then sync r al else nowhere r /\ only al a
    | Some (TNotifyCreate a _ s) => nowhere r /\ al a = Some s /\ In a addrs /\ a <> 0
    | Some (TNotifyDestroy a _) => nowhere al /\ only r a /\ In a addrs /\ a <> 0
    end.

  Definition my_task (ts : dict task) (u : nat) (o : option (nat * task)) : Prop :=
    match o with
    | None => forall i t, dget ts i = Some t -> task_uid t <> u
    | Some (i, t) => dget ts i = Some t /\ task_uid t = u /\
                     forall j t', dget ts j = Some t' -> task_uid t' = u -> j = i
    end.

  Definition rec_of (st : state) (u a : nat) := recorded (dir st) a u.
  Definition al_of (st : state) (u a : nat) := alive (live st) a u.

  Record UI (st : state) (u : nat) : Prop := {
    u_task : exists o, my_task (tasks st) u o /\ phase (rec_of st u) (al_of st u) (option_map snd o);
    u_uniq : forall a b s s', al_of st u a = Some s -> al_of st u b = Some s' -> a = b;
    u_in : forall a s, al_of st u a = Some s -> In a addrs
  }.

  Record Inv (st : state) : Prop := {
    n_next : forall i t, dget (tasks st) i = Some t -> i < next st;
    n_u : forall u, UI st u
  }.

  Lemma sync_ext : forall r al r' al', (forall a, r a = r' a) -> (forall a, al a = al' a) -> sync r al -> sync r' al'.
  Proof. unfold sync. intros r al r' al' R A H a. rewrite <- R, <- A. auto. Qed.
  Lemma only_ext : forall f f' a, (forall a, f a = f' a) -> only f a -> only f' a.
  Proof. unfold only. intros f f' a F H b s. rewrite <- F. eauto. Qed.
  Lemma nowhere_ext : forall f f', (forall a, f a = f' a) -> nowhere f -> nowhere f'.
  Proof. unfold nowhere. intros f f' F H b. rewrite <- F. auto. Qed.
  Lemma phase_ext : forall r al r' al' t, (forall a, r a = r' a) -> (forall a, al a = al' a) ->
    phase r al t -> phase r' al' t.
  Proof.
    intros r al r' al' t R A. unfold phase.
    destruct t as [[a u s [[|]|]|a u|a u s|a u]|]; try destruct (Nat.eqb a 0); rewrite <- ?A; intros H;
      repeat match goal with H : _ /\ _ |- _ => destruct H end; repeat split;
      eauto using sync_ext, only_ext, nowhere_ext.
  Qed.

  Lemma UI_frame : forall st st' u,
    (forall i t, task_uid t = u -> (dget (tasks st') i = Some t <-> dget (tasks st) i = Some t)) ->
    (forall a, recorded (dir st') a u = recorded (dir st) a u) ->
    (forall a, alive (live st') a u = alive (live st) a u) ->
    UI st u -> UI st' u.
  Proof.
    intros st st' u T R A [U1 U2 U3]. constructor.
    - destruct U1 as [o [M P]]. exists o. split.
      + destruct o as [[i t]|]; simpl in *.
        * destruct M as [M1 [M2 M3]]. split; [apply T; auto|]. split; auto.
          intros j t' Hj Hu. apply (M3 j t'); auto. apply T; auto.
        * intros i t Hi Hu. apply (M i t); auto. apply T; auto.
      + eapply phase_ext; [| |exact P]; unfold rec_of, al_of; auto.
    - unfold al_of in *. intros a b s s'. rewrite !A. apply U2.
    - unfold al_of in *. intros a s. rewrite A. apply U3.
  Qed.

  (** What the updates do to the entries of one uid. *)
  Lemma rec_set : forall d a u s b v, recorded (gset seqb d (a, Some u) s) b v =
    if (Nat.eqb a b && Nat.eqb u v)%bool then Some s else recorded d b v.
  Proof.
    intros. unfold recorded. rewrite (gget_gset _ seqb_spec). reflexivity.
  Qed.
  Lemma rec_del : forall d a u b v, recorded (gdel seqb d (a, Some u)) b v =
    if (Nat.eqb a b && Nat.eqb u v)%bool then None else recorded d b v.
  Proof.
    intros. unfold recorded. rewrite (gget_gdel _ seqb_spec). reflexivity.
  Qed.
  Lemma rec_setN : forall d a s b v, recorded (gset seqb d (a, None) s) b v = recorded d b v.
  Proof.
    intros. unfold recorded. rewrite (gget_gset _ seqb_spec). unfold seqb; simpl.
    rewrite Bool.andb_false_r. reflexivity.
  Qed.
  Lemma rec_delN : forall d a b v, recorded (gdel seqb d (a, None)) b v = recorded d b v.
  Proof.
    intros. unfold recorded. rewrite (gget_gdel _ seqb_spec). unfold seqb; simpl.
    rewrite Bool.andb_false_r. reflexivity.
  Qed.
  Lemma al_set : forall l a u s b v, alive (gset aeqb l (a, u) s) b v =
    if (Nat.eqb a b && Nat.eqb u v)%bool then Some s else alive l b v.
  Proof. intros. unfold alive. rewrite (gget_gset _ aeqb_spec). reflexivity. Qed.
  Lemma al_del : forall l a u b v, alive (gdel aeqb l (a, u)) b v =
    if (Nat.eqb a b && Nat.eqb u v)%bool then None else alive l b v.
  Proof. intros. unfold alive. rewrite (gget_gdel _ aeqb_spec). reflexivity. Qed.

  Lemma and_neq : forall a b u v, u <> v -> (Nat.eqb a b && Nat.eqb u v)%bool = false.
  Proof. intros. destruct (Nat.eqb_spec u v); [congruence|]. apply Bool.andb_false_r. Qed.

  (** Tasks of other uids are not touched. *)
  Lemma new_task_frame : forall (ts : dict task) n t u i t', (forall j x, dget ts j = Some x -> j < n) ->
    task_uid t <> u -> task_uid t' = u ->
    (dget (dset ts n t) i = Some t' <-> dget ts i = Some t').
  Proof.
    intros ts n t u i t' F N E. rewrite dget_dset. destruct (Nat.eqb_spec n i); [|tauto].
    subst i. split; intros H.
    - inversion H; subst. contradiction.
    - apply F in H. lia.
  Qed.
  Lemma set_task_frame : forall (ts : dict task) n t0 t u i t', dget ts n = Some t0 ->
    task_uid t0 <> u -> task_uid t <> u -> task_uid t' = u ->
    (dget (dset ts n t) i = Some t' <-> dget ts i = Some t').
  Proof.
    intros ts n t0 t u i t' F N N' E. rewrite dget_dset. destruct (Nat.eqb_spec n i); [|tauto].
    subst i. split; intros H.
    - inversion H; subst. contradiction.
    - exfalso. congruence.
  Qed.
  Lemma del_task_frame : forall (ts : dict task) n t0 u i t', dget ts n = Some t0 ->
    task_uid t0 <> u -> task_uid t' = u ->
    (dget (ddel ts n) i = Some t' <-> dget ts i = Some t').
  Proof.
    intros ts n t0 u i t' F N E. rewrite dget_ddel. destruct (Nat.eqb_spec n i); [|tauto].
    subst i. split; intros H; [discriminate|]. exfalso. congruence.
  Qed.

  (** The task of the uid concerned. *)
  Lemma my_new : forall ts n t, (forall j x, dget ts j = Some x -> j < n) ->
    my_task ts (task_uid t) None -> my_task (dset ts n t) (task_uid t) (Some (n, t)).
  Proof.
    intros ts n t F M. simpl. split; [apply dget_dset_eq|]. split; auto.
    intros j t' H E. rewrite dget_dset in H. destruct (Nat.eqb_spec n j); auto.
    exfalso. apply (M j t' H E).
  Qed.
  Lemma my_set : forall ts n t0 t u, my_task ts u (Some (n, t0)) -> task_uid t = u ->
    my_task (dset ts n t) u (Some (n, t)).
  Proof.
    intros ts n t0 t u [M1 [M2 M3]] E. simpl. split; [apply dget_dset_eq|]. split; auto.
    intros j t' H E'. rewrite dget_dset in H. destruct (Nat.eqb_spec n j); auto.
    apply (M3 j t'); auto.
  Qed.
  Lemma my_del : forall ts n t0 u, my_task ts u (Some (n, t0)) -> my_task (ddel ts n) u None.
  Proof.
    intros ts n t0 u [M1 [M2 M3]]. simpl. intros j t' H E. rewrite dget_ddel in H.
    destruct (Nat.eqb_spec n j); [discriminate|]. apply n0. symmetry. apply (M3 j t'); auto.
  Qed.
  Lemma my_is : forall ts u o i t, my_task ts u o -> dget ts i = Some t -> task_uid t = u -> o = Some (i, t).
  Proof.
    intros ts u o i t M H E. destruct o as [[j t']|]; simpl in M.
    - destruct M as [M1 [M2 M3]]. assert (i = j) by (apply (M3 i t); auto). subst. congruence.
    - exfalso. apply (M i t H E).
  Qed.
  Lemma my_none : forall st u o, quiet st u -> my_task (tasks st) u o -> o = None.
  Proof.
    intros st u o Q M. destruct o as [[i t]|]; auto. destruct M as [M1 [M2 _]]. exfalso. apply (Q i t); auto.
  Qed.

  (** Looking a reference up. *)
  Lemma find_rec : forall d u b, find (fun x => match recorded d x u with Some _ => true | None => false end) addrs = Some b ->
    In b addrs /\ exists s, recorded d b u = Some s.
  Proof.
    intros d u b H. apply find_some in H. destruct H as [H1 H2]. split; auto.
    destruct (recorded d b u); [eauto|discriminate].
  Qed.
  Lemma find_norec : forall d u, find (fun x => match recorded d x u with Some _ => true | None => false end) addrs = None ->
    forall b, In b addrs -> recorded d b u = None.
  Proof.
    intros d u H b I. pose proof (find_none _ _ H b I) as N. simpl in N.
    destruct (recorded d b u); [discriminate|auto].
  Qed.

  (** destroy_actor at the main pool, also for a reference whose actor is
      already gone. *)
  Lemma main_destroy_inv : forall st a u,
    (forall i t, dget (tasks st) i = Some t -> i < next st) ->
    (forall v, v <> u -> UI st v) -> quiet st u ->
    (forall a b s s', al_of st u a = Some s -> al_of st u b = Some s' -> a = b) ->
    (forall a s, al_of st u a = Some s -> In a addrs) ->
    (sync (rec_of st u) (al_of st u) \/
     (nowhere (al_of st u) /\ only (rec_of st u) a /\ In a addrs /\ a <> 0)) ->
    Inv (fst (main_destroy addrs st a u)).
  Proof.
    intros st a u NX FR Q UQ UN C. unfold main_destroy.
    destruct (actor_ref addrs st a u) as [b|] eqn:E.
    - simpl. constructor.
      + simpl. intros i t H. rewrite dget_dset in H. destruct (Nat.eqb_spec (next st) i); [lia|].
        apply NX in H. lia.
      + intros v. destruct (Nat.eq_dec v u) as [->|Nv].
        * assert (Pb : phase (fun x => if Nat.eqb b 0 then recorded (dir st) x u else
                                 recorded (gdel seqb (dir st) (b, Some u)) x u)
                             (fun x => al_of st u x) (Some (TDestroy b u))).
          { simpl. destruct (Nat.eqb_spec b 0) as [->|NB].
            - destruct C as [C|[C1 [C2 [C3 C4]]]]; [exact C|]. exfalso.
              unfold actor_ref in E. destruct (Nat.eqb_spec a 0); [congruence|]. simpl in E.
              apply find_rec in E. destruct E as [_ [s E]]. apply C2 in E. congruence.
            - destruct C as [C|[C1 [C2 [C3 C4]]]].
              + (* in sync: b is where it lives *)
                assert (AB : exists s, al_of st u b = Some s).
                { unfold actor_ref in E.
                  destruct (Nat.eqb a 0 && match alive (live st) 0 u with Some _ => true | None => false end).
                  - inversion E; subst. congruence.
                  - apply find_rec in E. destruct E as [_ [s E]]. exists s. rewrite <- C. exact E. }
                destruct AB as [s AB]. split.
                * intros x. rewrite rec_del. destruct (Nat.eqb_spec b x); simpl.
                  -- now rewrite Nat.eqb_refl.
                  -- destruct (recorded (dir st) x u) as [s'|] eqn:R; auto.
                     exfalso. apply n. apply (UQ b x s s'); auto. rewrite <- C. exact R.
                * intros x s' H. apply (UQ x b s' s); auto.
              + unfold actor_ref in E. destruct (Nat.eqb_spec a 0); [congruence|]. simpl in E.
                apply find_rec in E. destruct E as [_ [s E]]. apply C2 in E. subst b. split.
                * intros x. rewrite rec_del. destruct (Nat.eqb_spec a x); simpl.
                  -- now rewrite Nat.eqb_refl.
                  -- destruct (recorded (dir st) x u) as [s'|] eqn:R; auto.
                     exfalso. apply n0. symmetry. eapply C2. exact R.
                * intros x s' H. rewrite C1 in H. discriminate. }
          constructor.
          -- exists (Some (next st, TDestroy b u)). split.
             ++ apply (my_new (tasks st) (next st) (TDestroy b u)); auto.
             ++ eapply phase_ext; [| |exact Pb]; auto.
                intros x. unfold rec_of. simpl. destruct (Nat.eqb b 0); auto.
          -- exact UQ.
          -- exact UN.
        * apply (UI_frame st); auto.
          -- simpl. intros i t E'. apply (new_task_frame _ _ _ v); auto.
          -- simpl. intros x. destruct (Nat.eqb b 0); auto. rewrite rec_del, and_neq; auto.
    - simpl. constructor; auto. intros v. destruct (Nat.eq_dec v u) as [->|Nv]; auto.
      constructor; auto. exists None. split; [exact Q|]. simpl.
      destruct C as [C|[C1 [C2 [C3 C4]]]]; [exact C|]. intros x. rewrite C1.
      unfold rec_of. destruct (recorded (dir st) x u) as [s|] eqn:R; auto. exfalso.
      unfold actor_ref in E. destruct (Nat.eqb_spec a 0); [congruence|]. simpl in E.
      pose proof (find_norec _ _ E) as N. pose proof (C2 _ _ R). subst x. rewrite N in R; auto. discriminate.
  Qed.

  Lemma inv_step : forall st e, Inv st -> calm_event st e -> Inv (fst (step st e)).
  Proof.
    intros st e I C. pose proof I as [NX UU].
    destruct e as [s u|i o|i|i|a u|i ok|a u s o|a u ok|i]; simpl in C; cbn [MainModel.step].
    - (* Create *)
      destruct C as [Q C]. destruct (pick slots (dir st) s) as [a|] eqn:P; [|exact I].
      destruct (existsb (Nat.eqb a) addrs) eqn:X; [|exact I]. simpl.
      apply existsb_exists in X. destruct X as [a' [X1 X2]]. apply Nat.eqb_eq in X2. subst a'.
      constructor.
      + simpl. intros i t H. rewrite dget_dset in H. destruct (Nat.eqb_spec (next st) i); [lia|].
        apply NX in H. lia.
      + intros v. destruct (Nat.eq_dec v u) as [->|Nv].
        * destruct (UU u) as [[o' [M PH]] UQ UN]. pose proof (my_none _ _ _ Q M). subst o'.
          constructor; auto. exists (Some (next st, TCreate a u s None)). split.
          -- apply (my_new (tasks st) (next st) (TCreate a u s None)); auto.
          -- simpl in *. split; [|split; auto].
             ++ intros x. unfold rec_of. simpl. rewrite rec_setN. apply PH.
             ++ intros x s' H. eapply C; eauto.
        * apply (UI_frame st); auto.
          -- simpl. intros i t E'. apply (new_task_frame _ _ _ v); auto.
          -- simpl. intros x. apply rec_setN.
    - (* RunCreate *)
      destruct (dget (tasks st) i) as [[a u s [r|]|a u|a u s|a u]|] eqn:T; try exact I.
      destruct (pool_create (live st) a u s o) as [l ok] eqn:PC. simpl.
      constructor.
      + simpl. intros j t H. rewrite dget_dset in H. destruct (Nat.eqb_spec i j); [subst; eauto|eauto].
      + intros v. destruct (Nat.eq_dec v u) as [->|Nv].
        * destruct (UU u) as [[o' [M PH]] UQ UN].
          pose proof (my_is _ _ _ _ _ M T eq_refl). subst o'. simpl in PH. destruct PH as [P1 [P2 P3]].
          unfold pool_create in PC. destruct (alive (live st) a u) as [s0|] eqn:AL.
          -- inversion PC; subst. constructor; auto.
             exists (Some (i, TCreate a u s (Some false))). split; [eapply my_set; eauto|]. exact P1.
          -- assert (NW : nowhere (al_of st u)).
             { intros x. destruct (al_of st u x) as [s'|] eqn:AX; auto. pose proof (P2 x s' AX). subst x.
               unfold al_of in AX. congruence. }
             destruct o; inversion PC; subst; try congruence.
             ++ constructor; simpl.
                ** exists (Some (i, TCreate a u s (Some true))). split; [eapply my_set; eauto|].
                   simpl. split; [|split; auto].
                   --- intros x. unfold rec_of. simpl. specialize (P1 x). rewrite NW in P1. exact P1.
                   --- unfold al_of. simpl. rewrite al_set, !Nat.eqb_refl. reflexivity.
                ** intros x y s1 s2. unfold al_of. simpl. rewrite !al_set, Nat.eqb_refl, !Bool.andb_true_r.
                   pose proof (NW x) as Nx. pose proof (NW y) as Ny. unfold al_of in Nx, Ny. rewrite Nx, Ny.
                   destruct (Nat.eqb_spec a x), (Nat.eqb_spec a y); try discriminate. congruence.
                ** intros x s1. unfold al_of. simpl. rewrite al_set, Nat.eqb_refl, Bool.andb_true_r.
                   pose proof (NW x) as Nx. unfold al_of in Nx. rewrite Nx.
                   destruct (Nat.eqb_spec a x); try discriminate. congruence.
             ++ constructor; auto.
                exists (Some (i, TCreate a u s (Some false))). split; [eapply my_set; eauto|]. exact P1.
        * apply (UI_frame st); auto.
          -- simpl. intros j t E'. eapply (set_task_frame _ _ _ _ v); eauto; simpl; auto.
          -- simpl. intros x. unfold pool_create in PC.
             destruct (alive (live st) a u); [inversion PC; subst; auto|].
             destruct o; inversion PC; subst; auto; rewrite al_set, and_neq; auto.
    - (* EndCreate *)
      destruct (dget (tasks st) i) as [[a u s [ok|]|a u|a u s|a u]|] eqn:T; try exact I.
      simpl. constructor.
      + simpl. intros j t H. rewrite dget_ddel in H. destruct (Nat.eqb_spec i j); [discriminate|eauto].
      + intros v. destruct (Nat.eq_dec v u) as [->|Nv].
        * destruct (UU u) as [[o' [M PH]] UQ UN].
          pose proof (my_is _ _ _ _ _ M T eq_refl). subst o'.
          constructor; auto. exists None. split; [eapply my_del; eauto|].
          simpl in *. intros x. unfold rec_of. simpl. rewrite rec_delN. destruct ok.
          -- destruct PH as [P1 [P2 P3]]. rewrite rec_set, Nat.eqb_refl, Bool.andb_true_r.
             destruct (Nat.eqb_spec a x); [subst; auto|]. unfold al_of. simpl.
             pose proof (P1 x) as Px. unfold rec_of in Px. rewrite Px.
             destruct (alive (live st) x u) as [s'|] eqn:AX; auto. exfalso. apply n. eapply UQ; eauto.
          -- apply PH.
        * apply (UI_frame st); auto.
          -- simpl. intros j t E'. eapply (del_task_frame _ _ _ v); eauto; simpl; auto.
          -- simpl. intros x. rewrite rec_delN. destruct ok; auto. rewrite rec_set, and_neq; auto.
    - (* LoseCreate *) contradiction.
    - (* Destroy *)
      destruct (UU u) as [[o' [M PH]] UQ UN]. pose proof (my_none _ _ _ C M). subst o'.
      apply main_destroy_inv; auto.
    - (* RunDestroy *)
      subst ok. destruct (dget (tasks st) i) as [[a u s [r|]|a u|a u s|a u]|] eqn:T; try exact I.
      destruct (pool_destroy (live st) a u true) as [l done] eqn:PD. simpl.
      constructor.
      + simpl. intros j t H. rewrite dget_ddel in H. destruct (Nat.eqb_spec i j); [discriminate|eauto].
      + intros v. destruct (Nat.eq_dec v u) as [->|Nv].
        * destruct (UU u) as [[o' [M PH]] UQ UN].
          pose proof (my_is _ _ _ _ _ M T eq_refl). subst o'. simpl in PH.
          unfold pool_destroy in PD. destruct (alive (live st) a u) as [s0|] eqn:AL; inversion PD; subst.
          -- assert (GO : forall x, alive (gdel aeqb (live st) (a, u)) x u = None).
             { intros x. rewrite al_del, Nat.eqb_refl, Bool.andb_true_r. destruct (Nat.eqb_spec a x); auto.
               destruct (alive (live st) x u) as [s'|] eqn:AX; auto. exfalso. apply n. eapply UQ; eauto. }
             constructor; simpl.
             ++ exists None. split; [eapply my_del; eauto|]. simpl. intros x. unfold rec_of, al_of. simpl.
                rewrite GO. destruct (Nat.eqb_spec a 0) as [->|NA]; simpl.
                ** rewrite rec_del, Nat.eqb_refl, Bool.andb_true_r. destruct (Nat.eqb_spec 0 x); auto.
                   destruct (recorded (dir st) x u) as [s'|] eqn:R; auto. exfalso. apply n.
                   eapply UQ; eauto. unfold al_of. specialize (PH x). unfold rec_of in PH. rewrite R in PH.
                   symmetry. exact PH.
                ** destruct PH as [PH _]. apply PH.
             ++ unfold al_of. simpl. intros x y s1 s2 H. rewrite GO in H. discriminate.
             ++ unfold al_of. simpl. intros x s1 H. rewrite GO in H. discriminate.
          -- constructor; auto. exists None. split; [eapply my_del; eauto|]. simpl.
             rewrite Bool.andb_false_r. destruct (Nat.eqb_spec a 0); [exact PH|].
             destruct PH as [P1 P2]. intros x. transitivity (@None strat); [apply P1|].
             unfold al_of. simpl. destruct (alive (live st) x u) as [s'|] eqn:AX; auto.
             pose proof (P2 x s' AX). subst x. congruence.
        * apply (UI_frame st); auto.
          -- simpl. intros j t E'. eapply (del_task_frame _ _ _ v); eauto; simpl; auto.
          -- simpl. intros x. destruct (Nat.eqb a 0 && done); auto. rewrite rec_del, and_neq; auto.
          -- simpl. intros x. unfold pool_destroy in PD.
             destruct (alive (live st) a u); inversion PD; subst; auto. rewrite al_del, and_neq; auto.
    - (* SubCreate *)
      destruct C as [Q [EO [IA [NA NL]]]]. subst o. unfold pool_create. rewrite NL. simpl.
      constructor.
      + simpl. intros i t H. rewrite dget_dset in H. destruct (Nat.eqb_spec (next st) i); [lia|].
        apply NX in H. lia.
      + intros v. destruct (Nat.eq_dec v u) as [->|Nv].
        * destruct (UU u) as [[o' [M PH]] UQ UN]. pose proof (my_none _ _ _ Q M). subst o'.
          constructor; simpl.
          -- exists (Some (next st, TNotifyCreate a u s)). split.
             ++ apply (my_new (tasks st) (next st) (TNotifyCreate a u s)); auto.
             ++ simpl. split; [|split; auto].
                ** intros x. unfold rec_of. simpl. specialize (PH x). unfold al_of in PH. rewrite NL in PH. exact PH.
                ** unfold al_of. simpl. rewrite al_set, !Nat.eqb_refl. reflexivity.
          -- unfold al_of. simpl. intros x y s1 s2. rewrite !al_set, Nat.eqb_refl, !Bool.andb_true_r, !NL.
             destruct (Nat.eqb_spec a x), (Nat.eqb_spec a y); try discriminate. congruence.
          -- unfold al_of. simpl. intros x s1. rewrite al_set, Nat.eqb_refl, Bool.andb_true_r, NL.
             destruct (Nat.eqb_spec a x); try discriminate. congruence.
        * apply (UI_frame st); auto.
          -- simpl. intros i t E'. apply (new_task_frame _ _ _ v); auto.
          -- simpl. intros x. rewrite al_set, and_neq; auto.
    - (* SubDestroy *)
      destruct C as [Q NA]. unfold pool_destroy.
      destruct (alive (live st) a u) as [s0|] eqn:AL; [|destruct st; exact I].
      destruct ok; [|destruct st; exact I]. simpl. constructor.
      + simpl. intros i t H. rewrite dget_dset in H. destruct (Nat.eqb_spec (next st) i); [lia|].
        apply NX in H. lia.
      + intros v. destruct (Nat.eq_dec v u) as [->|Nv].
        * destruct (UU u) as [[o' [M PH]] UQ UN]. pose proof (my_none _ _ _ Q M). subst o'.
          assert (GO : forall x, alive (gdel aeqb (live st) (a, u)) x u = None).
          { intros x. rewrite al_del, Nat.eqb_refl, Bool.andb_true_r. destruct (Nat.eqb_spec a x); auto.
            destruct (alive (live st) x u) as [s'|] eqn:AX; auto. exfalso. apply n. eapply UQ; eauto. }
          constructor; simpl.
          -- exists (Some (next st, TNotifyDestroy a u)). split.
             ++ apply (my_new (tasks st) (next st) (TNotifyDestroy a u)); auto.
             ++ simpl. split; [exact GO|]. split; [|split; [eapply UN; eauto|auto]]. intros x s' H.
                specialize (PH x). unfold rec_of in *. simpl in H. rewrite H in PH. symmetry in PH.
                eapply UQ; eauto.
          -- unfold al_of. simpl. intros x y s1 s2 H. rewrite GO in H. discriminate.
          -- unfold al_of. simpl. intros x s1 H. rewrite GO in H. discriminate.
        * apply (UI_frame st); auto.
          -- simpl. intros i t E'. apply (new_task_frame _ _ _ v); auto.
          -- simpl. intros x. rewrite al_del, and_neq; auto.
    - (* Notify *)
      destruct (dget (tasks st) i) as [[a u s [r|]|a u|a u s|a u]|] eqn:T; try exact I.
      + destruct (UU u) as [[o' [M PH]] UQ UN].
        pose proof (my_is _ _ _ _ _ M T eq_refl). subst o'. simpl in PH. destruct PH as [P1 [P2 [P3 P4]]].
        assert (X : existsb (Nat.eqb a) addrs = true).
        { apply existsb_exists. exists a. split; auto. apply Nat.eqb_refl. }
        rewrite X. simpl. constructor.
        * simpl. intros j t H. rewrite dget_ddel in H. destruct (Nat.eqb_spec i j); [discriminate|eauto].
        * intros v. destruct (Nat.eq_dec v u) as [->|Nv].
          -- constructor; auto. exists None. split; [eapply my_del; eauto|]. simpl.
             intros x. unfold rec_of. simpl. rewrite rec_set, Nat.eqb_refl, Bool.andb_true_r.
             destruct (Nat.eqb_spec a x); [subst; auto|]. unfold al_of. simpl.
             pose proof (P1 x) as Px. unfold rec_of in Px. rewrite Px.
             destruct (alive (live st) x u) as [s'|] eqn:AX; auto. exfalso. apply n. eapply UQ; eauto.
          -- apply (UI_frame st); auto.
             ++ simpl. intros j t E'. eapply (del_task_frame _ _ _ v); eauto; simpl; auto.
             ++ simpl. intros x. rewrite rec_set, and_neq; auto.
      + destruct (UU u) as [[o' [M PH]] UQ UN].
        pose proof (my_is _ _ _ _ _ M T eq_refl). subst o'. simpl in PH. destruct PH as [P1 [P2 [P3 P4]]].
        cbn [fst]. apply main_destroy_inv.
        * simpl. intros j t H. rewrite dget_ddel in H. destruct (Nat.eqb_spec i j); [discriminate|eauto].
        * intros v Nv. apply (UI_frame st); auto.
          simpl. intros j t E'. eapply (del_task_frame _ _ _ v); eauto; simpl; auto.
        * intros j t H E'. simpl in H. rewrite dget_ddel in H. destruct (Nat.eqb_spec i j); [discriminate|].
          apply n. destruct M as [_ [_ M]]. symmetry. eapply M; eauto.
        * exact UQ.
        * exact UN.
        * right. repeat split; auto.
  Qed.
End Inv.
