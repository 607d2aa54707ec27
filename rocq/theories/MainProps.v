(** C15 (directory of the main pool) and C17 (IdleLabel).

    Reading guide.  [addrs] are the addresses the main pool knows (0 is its own),
    [slots m] the addresses with the label of the IdleLabel strategy m.  A state
    has [live] (the actors registered in the pools, each with the strategy it was
    asked for), [dir] (what the main pool has recorded) and the operations in
    progress.  [alive (live st) a u] is [Some s] iff pool a has actor u.
    [has_actor], [actor_ref] are the main pool's answers; [actor_ref] is also what
    decides where calls and destructions are sent.

    Calm histories ([calm_event], [calm_idle]):
    - an operation on a uid starts only when no other one on it is in progress,
      and no uid is created in a second pool while it lives in one;
    - hooks do not raise (__init__ may, when created through the main pool),
      connections to sub pools are not lost;
    - direct creations go to known sub pools and succeed;
    - for C17: no creation is sent to an address where another one is in
      progress, and direct creations do not ask for IdleLabel.
    The [_refuted] theorems show what happens otherwise. *)
From Coq Require Import List Bool Arith Lia.
From Verif Require Import Base Dict MainModel MainProofs MainIdle.
Import ListNotations.

Section Props.
  Variable addrs : list nat.
  Variable slots : nat -> list nat.

  Fixpoint calm (st : state) (es : list event) : Prop :=
    match es with
    | [] => True
    | e :: es' => calm_event addrs slots st e /\ calm (fst (step addrs slots st e)) es'
    end.
  Fixpoint calm17 (st : state) (es : list event) : Prop :=
    match es with
    | [] => True
    | e :: es' => calm_event addrs slots st e /\ calm_idle slots st e /\
                  calm17 (fst (step addrs slots st e)) es'
    end.
End Props.

Lemma calm17_calm : forall addrs slots es st, calm17 addrs slots st es -> calm addrs slots st es.
Proof. induction es as [|e es IH]; simpl; intros st H; auto. destruct H as [A [_ B]]. auto. Qed.

Lemma reach_inv : forall addrs slots es st, Inv addrs st -> calm addrs slots st es ->
  Inv addrs (run addrs slots st es).
Proof.
  induction es as [|e es IH]; simpl; intros st I C; auto.
  destruct C as [C1 C2]. apply IH; auto. now apply inv_step.
Qed.
Lemma reach_idle : forall addrs slots es st, Inv addrs st -> II st -> calm17 addrs slots st es ->
  II (run addrs slots st es).
Proof.
  induction es as [|e es IH]; simpl; intros st I J C; auto.
  destruct C as [C1 [C2 C3]]. apply IH; auto.
  - now apply inv_step.
  - apply idle_step; auto. apply I.
Qed.

(** ** C15 *)

Definition lives (st : state) (a u : nat) : Prop := exists s, alive (live st) a u = Some s.

(** For every uid without an operation in progress, the main pool says it exists
    iff it lives in some pool, and directs whatever is addressed to it to the pool
    where it lives (and reports ActorNotExist iff it lives nowhere). *)
Theorem C15_directory_partial : forall addrs slots es u,
  calm addrs slots init es ->
  let st := run addrs slots init es in
  quiet st u ->
  (has_actor addrs st u = true <-> exists a, lives st a u) /\
  (forall b a, actor_ref addrs st b u = Some a <-> lives st a u) /\
  (forall b, actor_ref addrs st b u = None <-> forall a, ~ lives st a u).
Proof.
  intros addrs slots es u C st Q.
  pose proof (reach_inv addrs slots es init (inv_init addrs) C) as I. fold st in I.
  destruct I as [_ UU]. destruct (UU u) as [[o [M PH]] UQ UN].
  pose proof (my_none _ _ _ Q M). subst o. simpl in PH. unfold rec_of, al_of, sync in *.
  assert (HA : has_actor addrs st u = true <-> exists a, lives st a u).
  { unfold has_actor, lives. rewrite existsb_exists. split.
    - intros [a [_ H]]. destruct (recorded (dir st) a u) as [s|] eqn:R; [|discriminate].
      exists a, s. now rewrite <- PH.
    - intros [a [s H]]. exists a. split; [eauto|]. now rewrite PH, H. }
  assert (R1 : forall b a, actor_ref addrs st b u = Some a -> lives st a u).
  { intros b a. unfold actor_ref, lives.
    destruct (alive (live st) 0 u) as [s|] eqn:E; [rewrite andb_true_r|rewrite andb_false_r].
    - destruct (Nat.eqb b 0).
      + intros H. inversion H; subst. eauto.
      + intros H. apply find_rec in H. destruct H as [_ [s' H]]. exists s'. now rewrite <- PH.
    - intros H. apply find_rec in H. destruct H as [_ [s' H]]. exists s'. now rewrite <- PH. }
  assert (R2 : forall b, actor_ref addrs st b u = None -> forall a, ~ lives st a u).
  { intros b H a [s L]. unfold actor_ref in H.
    destruct (Nat.eqb b 0 && match alive (live st) 0 u with Some _ => true | None => false end); [discriminate|].
    pose proof (find_norec _ _ _ H a (UN a s L)) as N. rewrite PH in N. congruence. }
  split; [exact HA|]. split.
  - intros b a. split; [apply R1|]. intros [s L].
    destruct (actor_ref addrs st b u) as [a'|] eqn:E.
    + apply R1 in E. destruct E as [s' E]. f_equal. eapply UQ; eauto.
    + exfalso. apply (R2 b E a). exists s; auto.
  - intros b. split; [apply R2|]. intros N. destruct (actor_ref addrs st b u) as [a'|] eqn:E; auto.
    exfalso. apply (N a'). eauto.
Qed.

(** One creation, from any state: it goes to the address asked for, or fails with a KeyError and without a
    trace when the main pool does not know it.  When it ends undisturbed, the actor lives there and is found
    if [__init__] and [__post_create__] succeed; if [__init__] raises, nothing has changed; if
    [__post_create__] raises, the actor lives there but the main pool says nothing about it.  A uid that is in
    use there stays as it is.  Other actors are not affected.  Only a creation in another process can be lost. *)
Theorem C15_one_creation_partial : forall addrs slots st a u o,
  let i := next st in
  (~ In a addrs -> step addrs slots st (Create (At a) u) = (st, AKeyError)) /\
  (In a addrs ->
     snd (step addrs slots st (Create (At a) u)) = AAddress a /\
     let st' := run addrs slots st [Create (At a) u; RunCreate i o; EndCreate i] in
     (forall b v, (b, v) <> (a, u) -> (lives st' b v <-> lives st b v)) /\
     (lives st' a u <-> lives st a u \/ o <> InitFails) /\
     (~ lives st a u -> o = Made -> has_actor addrs st' u = true) /\
     (lives st a u \/ o <> Made -> forall v, has_actor addrs st' v = has_actor addrs st v) /\
     (forall v, v <> u -> has_actor addrs st' v = has_actor addrs st v) /\
     let lost := run addrs slots st [Create (At a) u; RunCreate i o; LoseCreate i] in
     (a = 0 -> dget (tasks lost) i <> None) /\
     (a <> 0 -> dget (tasks lost) i = None /\ forall v, has_actor addrs lost v = has_actor addrs st v)).
Proof.
  intros addrs slots st a u o i. split.
  - intros N. cbn [step pick]. replace (existsb (Nat.eqb a) addrs) with false; [reflexivity|].
    symmetry. apply Bool.not_true_iff_false. intros X. apply existsb_exists in X. destruct X as (x & X & Y).
    apply Nat.eqb_eq in Y. now subst.
  - intros A.
    assert (E : existsb (Nat.eqb a) addrs = true) by (apply existsb_exists; exists a; split; [exact A|apply Nat.eqb_refl]).
    assert (H : forall d d', (forall b v, recorded d b v = recorded d' b v) -> forall v l t n l' t' n',
      has_actor addrs {| live := l; dir := d; tasks := t; next := n |} v =
      has_actor addrs {| live := l'; dir := d'; tasks := t'; next := n' |} v).
    { intros d d' X v l t n l' t' n'. unfold has_actor. cbn [dir]. induction addrs as [|b r IH]; [reflexivity|].
      cbn [existsb]. rewrite X. f_equal. clear -X. induction r as [|c r IH]; [reflexivity|]. cbn [existsb]. now rewrite X, IH. }
    cbn [run fold_left step pick]. rewrite E. cbn [fst snd]. split; [reflexivity|]. unfold with_task.
    cbn [tasks dir live next]. rewrite !dget_dset_eq.
    destruct (pool_create (live st) a u (At a) o) as [l ok] eqn:P. cbn [fst].
    cbn [tasks dir live next]. rewrite !dget_dset_eq. cbn [fst].
    assert (HS : forall v, has_actor addrs st v = has_actor addrs {| live := live st; dir := dir st; tasks := tasks st; next := next st |} v) by (intros v; destruct st; reflexivity).
    unfold pool_create in P. unfold lives.
    unfold end_task. cbn [live dir tasks next].
    assert (AE : forall b v, (b, v) <> (a, u) -> (Nat.eqb a b && Nat.eqb u v)%bool = false).
    { intros b v N. destruct (Nat.eqb_spec a b), (Nat.eqb_spec u v); subst; auto. congruence. }
    split; [|split; [|split; [|split; [|split; [|split; [|intros H0; split]]]]]].
    + intros b v N. apply AE in N. destruct (alive (live st) a u) eqn:L; [injection P as <- <-; reflexivity|].
      destruct o; injection P as <- <-; rewrite ?al_set; try reflexivity; unfold aeqb; cbn [fst snd]; rewrite N; reflexivity.
    + destruct (alive (live st) a u) eqn:L.
      * injection P as <- <-. rewrite L. split; eauto.
      * destruct o; injection P as <- <-; rewrite ?al_set; unfold aeqb; cbn [fst snd]; rewrite ?Nat.eqb_refl; cbn [andb].
        -- split; [right; discriminate|eauto].
        -- rewrite L. split; [intros [s X]; discriminate|intros [[s X]|X]; [discriminate|congruence]].
        -- split; [right; discriminate|eauto].
    + intros N ->. destruct (alive (live st) a u) eqn:L; [elim N; eauto|]. injection P as <- <-.
      apply existsb_exists. exists a. split; [exact A|]. cbn [dir]. rewrite rec_delN, rec_set. unfold seqb. cbn [fst snd].
      now rewrite !Nat.eqb_refl.
    + intros N v. rewrite HS. replace ok with false.
      * apply H. intros b w. now rewrite rec_delN, rec_setN.
      * destruct (alive (live st) a u) eqn:L; [now injection P as <- <-|].
        destruct o; injection P as <- <-; auto. destruct N as [[s N]|N]; [discriminate|congruence].
    + intros v N. rewrite HS. unfold has_actor. cbn [dir]. clear A E H.
      assert (X : forall b, recorded (gdel seqb (if ok then gset seqb (gset seqb (dir st) (a, None) (At a)) (a, Some u) (At a)
        else gset seqb (dir st) (a, None) (At a)) (a, None)) b v = recorded (dir st) b v).
      { intros b. rewrite rec_delN. destruct ok; [|now rewrite rec_setN]. rewrite rec_set, rec_setN. unfold seqb. cbn [fst snd].
        replace (Nat.eqb u v) with false by (symmetry; apply Nat.eqb_neq; congruence). now rewrite andb_false_r. }
      induction addrs as [|b r IH]; [reflexivity|]. cbn [existsb]. now rewrite X, IH.
    + intros ->. cbn [Nat.eqb fst tasks]. rewrite dget_dset_eq. discriminate.
    + apply Nat.eqb_neq in H0. rewrite H0. cbn [fst tasks]. apply dget_ddel_eq.
    + apply Nat.eqb_neq in H0. rewrite H0. cbn [fst]. intros v. rewrite HS. apply H. intros b w. apply rec_setN.
Qed.

(** The full claim: at any moment when nothing is in progress. *)
Definition C15_claim : Prop := forall addrs slots es u,
  let st := run addrs slots init es in
  tasks st = [] -> (has_actor addrs st u = true <-> exists a, lives st a u).

Definition fix2 : list nat := [0; 1; 2].
Definition nos : nat -> list nat := fun _ => [].

(** A failing __pre_destroy__ in a sub pool: the actor lives on, but the main
    pool has forgotten it (pool.py 1123-1131). *)
Theorem C15_directory_refuted : ~ C15_claim.
Proof.
  intros H. specialize (H fix2 nos
    [Create (At 1) 7; RunCreate 0 Made; EndCreate 0; Destroy 1 7; RunDestroy 1 false] 7 eq_refl).
  assert (X : has_actor fix2 (run fix2 nos init
    [Create (At 1) 7; RunCreate 0 Made; EndCreate 0; Destroy 1 7; RunDestroy 1 false]) 7 = true).
  { apply H. exists 1, (At 1). reflexivity. }
  vm_compute in X. discriminate.
Qed.

(** A creation in a sub pool that fails is recorded all the same (926-931). *)
Theorem C15_failed_creation_refuted :
  let st := run fix2 nos init [SubCreate 1 7 (At 1) InitFails; Notify 0] in
  tasks st = [] /\ has_actor fix2 st 7 = true /\ forall a, ~ lives st a 7.
Proof. repeat split; auto. intros a [s H]. vm_compute in H. discriminate. Qed.

(** The same uid in two pools: destroying the actor of pool 2 makes the main pool
    destroy the actor of pool 1 and keep the entry of pool 2 (1107-1131 look the
    uid up without its address, 1183-1187). *)
Theorem C15_wrong_actor_refuted :
  let es := [Create (At 1) 7; RunCreate 0 Made; EndCreate 0; Create (At 2) 7; RunCreate 1 Made; EndCreate 1] in
  let st := run fix2 nos init es in
  let st' := run fix2 nos init (es ++ [SubDestroy 2 7 true; Notify 2; RunDestroy 3 true]) in
  tasks st = [] /\ lives st 1 7 /\ lives st 2 7 /\ actor_ref fix2 st 2 7 = Some 1 /\
  tasks st' = [] /\ (forall a, ~ lives st' a 7) /\ has_actor fix2 st' 7 = true.
Proof.
  repeat split; try (eexists; reflexivity). intros a [s H]. vm_compute in H. discriminate.
Qed.

(** A sub pool added later (append_sub_pool, indigen/pool.py 341-405) has no
    entry in the directory: its actors are never recorded, and the main pool
    cannot create any there. *)
Theorem C15_appended_pool_refuted :
  let st := run fix2 nos init [SubCreate 3 7 (At 3) Made; Notify 0] in
  tasks st = [] /\ lives st 3 7 /\ has_actor fix2 st 7 = false /\
  snd (step fix2 nos st (Create (At 3) 8)) = AKeyError.
Proof. repeat split. eexists; reflexivity. Qed.

(** ** C17 *)

(** Being destroyed: the destruction has been requested. *)
Definition destroying (st : state) (a u : nat) : Prop :=
  exists i, dget (tasks st) i = Some (TDestroy a u).

(** Of the actors created with IdleLabel m and not being destroyed, no two live
    in one process. *)
Theorem C17_no_sharing_partial : forall addrs slots es m a u v,
  calm17 addrs slots init es ->
  let st := run addrs slots init es in
  alive (live st) a u = Some (Idle m) -> ~ destroying st a u ->
  alive (live st) a v = Some (Idle m) -> ~ destroying st a v -> u = v.
Proof.
  intros addrs slots es m a u v C st Lu Du Lv Dv.
  pose proof (reach_inv addrs slots es init (inv_init addrs) (calm17_calm _ _ _ _ C)) as I.
  pose proof (reach_idle addrs slots es init (inv_init addrs) (idle_init) C) as J. fold st in I, J.
  destruct I as [_ UU]. destruct J as [ND PL ON EX NF].
  assert (K : forall w, alive (live st) a w = Some (Idle m) -> ~ destroying st a w ->
     gget seqb (dir st) (a, Some w) = Some (Idle m) \/
     (gget seqb (dir st) (a, None) = Some (Idle m) /\
      exists i r, dget (tasks st) i = Some (TCreate a w (Idle m) r))).
  { intros w L D. destruct (UU w) as [[o [M PH]] UQ UN]. unfold rec_of, al_of, sync, nowhere, only in *.
    destruct o as [[i t]|]; simpl in PH.
    - destruct M as [M1 [M2 M3]].
      destruct t as [b w' s [[|]|]|b w'|b w' s|b w']; simpl in M2; subst w'.
      + destruct PH as [P1 [P2 P3]]. assert (b = a) by (eapply UQ; eauto). subst b.
        rewrite L in P2. inversion P2; subst s. right. split; eauto. apply PL. eauto.
      + left. fold (recorded (dir st) a w). now rewrite PH.
      + left. destruct PH as [PH _]. fold (recorded (dir st) a w). now rewrite PH.
      + destruct (Nat.eqb b 0) eqn:B.
        * left. fold (recorded (dir st) a w). now rewrite PH.
        * destruct PH as [_ P2]. pose proof (P2 a _ L). subst b. exfalso. apply D. exists i. auto.
      + destruct PH as [P1 [P2 P3]]. assert (b = a) by (eapply UQ; eauto). subst b.
        rewrite L in P2. inversion P2; subst s. exfalso. eapply NF; eauto.
      + destruct PH as [P1 _]. rewrite P1 in L. discriminate.
    - left. fold (recorded (dir st) a w). now rewrite PH. }
  destruct (K u Lu Du) as [A|[A [i [r T]]]], (K v Lv Dv) as [B|[B [j [r' T']]]].
  - pose proof (EX _ _ _ _ A B). congruence.
  - pose proof (EX _ _ _ _ A B). congruence.
  - pose proof (EX _ _ _ _ A B). congruence.
  - pose proof (ON _ _ _ _ _ _ _ _ _ T T'). subst j. congruence.
Qed.

(** A creation with IdleLabel m gets a slot of the label at which no actor of
    IdleLabel m lives (not being destroyed); it is refused with NoIdleSlot only if
    each slot has such an actor or one being created; and, when no operation is
    in progress, exactly if each slot has such an actor. *)
Theorem C17_slot_partial : forall addrs slots es m u,
  calm17 addrs slots init es ->
  let st := run addrs slots init es in
  let ans := snd (step addrs slots st (Create (Idle m) u)) in
  (forall a, ans = AAddress a -> In a (slots m) /\
     forall v, alive (live st) a v = Some (Idle m) -> destroying st a v) /\
  (ans = ANoIdleSlot -> forall a, In a (slots m) ->
     (exists v, alive (live st) a v = Some (Idle m)) \/
     (exists i v r, dget (tasks st) i = Some (TCreate a v (Idle m) r)) \/
     (exists i v, dget (tasks st) i = Some (TNotifyDestroy a v))) /\
  (tasks st = [] ->
     (ans = ANoIdleSlot <-> forall a, In a (slots m) -> exists v, alive (live st) a v = Some (Idle m))).
Proof.
  intros addrs slots es m u C st ans.
  pose proof (reach_inv addrs slots es init (inv_init addrs) (calm17_calm _ _ _ _ C)) as I.
  pose proof (reach_idle addrs slots es init (inv_init addrs) (idle_init) C) as J. fold st in I, J.
  destruct I as [_ UU]. pose proof J as [ND PL ON EX NF].
  (* an actor that is recorded or being created occupies *)
  assert (K : forall a w, alive (live st) a w = Some (Idle m) -> ~ destroying st a w ->
     exists k, gget seqb (dir st) (a, k) = Some (Idle m)).
  { intros a w L D. destruct (UU w) as [[o [M PH]] UQ UN]. unfold rec_of, al_of, sync, nowhere, only in *.
    destruct o as [[i t]|]; simpl in PH.
    - destruct M as [M1 [M2 M3]].
      destruct t as [b w' s [[|]|]|b w'|b w' s|b w']; simpl in M2; subst w'.
      + destruct PH as [P1 [P2 P3]]. assert (b = a) by (eapply UQ; eauto). subst b.
        rewrite L in P2. inversion P2; subst s. exists None. apply PL. eauto.
      + exists (Some w). fold (recorded (dir st) a w). now rewrite PH.
      + exists (Some w). destruct PH as [PH _]. fold (recorded (dir st) a w). now rewrite PH.
      + destruct (Nat.eqb b 0) eqn:B.
        * exists (Some w). fold (recorded (dir st) a w). now rewrite PH.
        * destruct PH as [_ P2]. pose proof (P2 a _ L). subst b. exfalso. apply D. exists i. auto.
      + destruct PH as [P1 [P2 P3]]. assert (b = a) by (eapply UQ; eauto). subst b.
        rewrite L in P2. inversion P2; subst s. exfalso. eapply NF; eauto.
      + destruct PH as [P1 _]. rewrite P1 in L. discriminate.
    - exists (Some w). fold (recorded (dir st) a w). now rewrite PH. }
  (* what occupies *)
  assert (O : forall a k, gget seqb (dir st) (a, k) = Some (Idle m) ->
     (exists v, alive (live st) a v = Some (Idle m)) \/
     (exists i v r, dget (tasks st) i = Some (TCreate a v (Idle m) r)) \/
     (exists i v, dget (tasks st) i = Some (TNotifyDestroy a v))).
  { intros a [w|] H; [|right; left; apply PL in H; exact H].
    fold (recorded (dir st) a w) in H.
    destruct (UU w) as [[o [M PH]] UQ UN]. unfold rec_of, al_of, sync, nowhere, only in *.
    destruct o as [[i t]|]; simpl in PH.
    - destruct M as [M1 [M2 M3]].
      destruct t as [b w' s [[|]|]|b w'|b w' s|b w']; simpl in M2; subst w'.
      + destruct PH as [P1 _]. rewrite P1 in H. discriminate.
      + left. exists w. now rewrite <- PH.
      + left. destruct PH as [PH _]. exists w. now rewrite <- PH.
      + destruct (Nat.eqb b 0) eqn:B.
        * left. exists w. now rewrite <- PH.
        * destruct PH as [P1 _]. rewrite P1 in H. discriminate.
      + destruct PH as [P1 _]. rewrite P1 in H. discriminate.
      + destruct PH as [_ [P2 _]]. pose proof (P2 a _ H). subst b. right. right. eauto.
    - left. exists w. now rewrite <- PH. }
  assert (S : ans = ANoIdleSlot -> forall a, In a (slots m) -> exists k, gget seqb (dir st) (a, k) = Some (Idle m)).
  { unfold ans. cbn [step]. destruct (pick slots (dir st) (Idle m)) as [a|] eqn:P.
    - destruct (existsb (Nat.eqb a) addrs); discriminate.
    - intros _ a A. simpl in P. pose proof (find_none _ _ P a A) as N. simpl in N.
      apply negb_false_iff in N. apply occupied_iff in N; auto. }
  repeat split.
  - unfold ans in H. cbn [step] in H. destruct (pick slots (dir st) (Idle m)) as [b|] eqn:P; [|discriminate].
    destruct (existsb (Nat.eqb b) addrs); [|discriminate]. simpl in H. inversion H; subst.
    simpl in P. apply find_some in P. tauto.
  - intros v L. unfold ans in H. cbn [step] in H. destruct (pick slots (dir st) (Idle m)) as [b|] eqn:P; [|discriminate].
    destruct (existsb (Nat.eqb b) addrs); [|discriminate]. simpl in H. inversion H; subst.
    simpl in P. apply find_some in P. destruct P as [_ P]. apply negb_true_iff in P.
    destruct (UU v) as [[o [M PH]] UQ UN].
    assert (ND' : ~ ~ destroying st a v).
    { intros N. destruct (K a v L N) as [k Q].
      assert (X : occupied (dir st) m a = true) by (apply occupied_iff; eauto). congruence. }
    (* being destroyed is decidable: look at the task of v *)
    destruct o as [[i t]|].
    + destruct M as [M1 [M2 M3]]. destruct t as [b w' s r|b w'|b w' s|b w']; simpl in M2; subst w'.
      1,3,4: exfalso; apply ND'; intros [j D]; assert (j = i) by (eapply M3; eauto); subst; congruence.
      destruct (Nat.eq_dec b a) as [->|NE]; [exists i; auto|].
      exfalso. apply ND'. intros [j D]. assert (j = i) by (eapply M3; eauto). subst. congruence.
    + exfalso. apply ND'. intros [j D]. eapply M; eauto.
  - intros H a A. destruct (S H a A) as [k Q]. eauto.
  - intros E a A. destruct (S E a A) as [k Q]. destruct (O a k Q) as [?|[[i [v [r T]]]|[i [v T]]]]; auto;
      rewrite H in T; discriminate.
  - intros E. unfold ans. cbn [step]. destruct (pick slots (dir st) (Idle m)) as [b|] eqn:P; [|reflexivity].
    exfalso. simpl in P. apply find_some in P. destruct P as [P1 P2]. apply negb_true_iff in P2.
    destruct (E b P1) as [v L]. destruct (K b v L) as [k Q].
    { intros [j D]. rewrite H in D. discriminate. }
    assert (X : occupied (dir st) m b = true) by (apply occupied_iff; eauto). congruence.
Qed.

(** The full claim, whatever else goes on. *)
Definition C17_claim : Prop := forall addrs slots es m a u v,
  let st := run addrs slots init es in
  tasks st = [] -> alive (live st) a u = Some (Idle m) -> alive (live st) a v = Some (Idle m) -> u = v.

Definition one_slot : nat -> list nat := fun _ => [1].
(** While a creation with IdleLabel is in progress in process 1, any other
    creation sent to process 1 takes over and then removes the single placeholder
    (pool.py 1055, 1089): a second actor with the same IdleLabel gets process 1. *)
Theorem C17_sharing_refuted : ~ C17_claim.
Proof.
  intros H. specialize (H fix2 one_slot
    [Create (Idle 0) 7; Create (At 1) 8; Create (Idle 0) 9;
     RunCreate 0 Made; RunCreate 1 Made; RunCreate 2 Made; EndCreate 0; EndCreate 1; EndCreate 2] 0 1 7 9
    eq_refl eq_refl eq_refl). discriminate.
Qed.

(** If the connection breaks during a creation the placeholder stays, and the
    slot is refused from then on although nothing lives there. *)
Theorem C17_lost_slot_refuted :
  let st := run fix2 one_slot init [Create (Idle 0) 7; LoseCreate 0] in
  tasks st = [] /\ live st = [] /\ snd (step fix2 one_slot st (Create (Idle 0) 8)) = ANoIdleSlot.
Proof. repeat split. Qed.

(** The hypotheses are met: creations overlapping on different processes, a
    failed creation, a destruction, a direct creation and destruction. *)
Definition two_slots : nat -> list nat := fun _ => [1; 2].
Definition demo : list event :=
  [Create (Idle 0) 7; Create (Idle 0) 8; RunCreate 1 Made; RunCreate 0 Made; EndCreate 0;
   EndCreate 1; Create (At 1) 7; RunCreate 2 Made; EndCreate 2; SubCreate 2 9 (At 2) Made;
   Destroy 0 7; Notify 3; RunDestroy 4 true; Create (Idle 0) 5; SubDestroy 2 9 true; Notify 6;
   RunCreate 5 InitFails; EndCreate 5; RunDestroy 7 true].
Lemma calm17_cons : forall addrs slots st e es st', fst (step addrs slots st e) = st' ->
  calm17 addrs slots st [e] -> calm17 addrs slots st' es -> calm17 addrs slots st (e :: es).
Proof. intros addrs slots st e es st' <- H1 H2. cbn [calm17] in *. tauto. Qed.
Ltac calm_step :=
  eapply calm17_cons; [vm_compute; reflexivity| |];
  [simpl; unfold quiet, creating; simpl; repeat split; auto; try discriminate; try (intros; discriminate);
    try (intros i t H; repeat (destruct i as [|i]; try discriminate); inversion H; subst; simpl; discriminate);
    try (intros a H; inversion H; subst; clear H; intros [i [u [s [r H]]]];
         repeat (destruct i as [|i]; try discriminate));
    try (intros a b s' H; inversion H; subst; clear H; intros H;
         destruct b as [|[|[|b]]]; vm_compute in H; congruence) |].
Example demo_calm : calm17 fix2 two_slots init demo.
Proof.
  unfold demo. repeat calm_step; [|exact I].
  intros b. destruct b as [|[|[|b]]]; reflexivity.
Qed.
Example demo_result :
  let st := run fix2 two_slots init demo in
  tasks st = [] /\ live st = [((2, 8), Idle 0)] /\ has_actor fix2 st 8 = true /\
  actor_ref fix2 st 0 8 = Some 2 /\ has_actor fix2 st 7 = false /\
  snd (step fix2 two_slots st (Create (Idle 0) 4)) = AAddress 1.
Proof. vm_compute. repeat split. Qed.

Print Assumptions C15_one_creation_partial.
Print Assumptions C15_directory_partial.
Print Assumptions C15_directory_refuted.
Print Assumptions C15_failed_creation_refuted.
Print Assumptions C15_wrong_actor_refuted.
Print Assumptions C15_appended_pool_refuted.
Print Assumptions C17_no_sharing_partial.
Print Assumptions C17_slot_partial.
Print Assumptions C17_sharing_refuted.
Print Assumptions C17_lost_slot_refuted.
