(** The actor registry and the table of running requests. *)
From Coq Require Import List Arith Bool Lia.
From Verif Require Import Base PoolModel PoolProofs.
Import ListNotations.

(** ** Specification of the registry: the actors that were created and not
    destroyed since, according to the answers given. *)
Definition live_after (b : bool) (u : nat) (e : request * body) : bool :=
  match r_kind (fst e), snd e with
  | KCreate u' _, BRef _ => if u' =? u then true else b
  | KDestroy u', BUid _ => if u' =? u then false else b
  | _, _ => b
  end.
Definition spec_live (l : list (request * body)) (u : nat) : bool :=
  fold_left (fun b e => live_after b u e) l false.

(** A creation or destruction of [u] is under way. *)
Definition concerns (u : nat) (t : task) : bool :=
  match t_phase t with PPost u' | PPre u' => u' =? u | _ => false end.
Definition busy (s : pool) (u : nat) : bool := existsb (concerns u) (tasks s).

(** Histories in which creations and destructions of the same actor do not
    overlap and no __post_create__ fails. *)
Fixpoint gentle (s : pool) (evs : list event) : Prop :=
  match evs with
  | [] => True
  | ev :: evs' =>
      match ev with
      | EStart r =>
          match r_kind r with
          | KCreate u _ | KDestroy u => busy s u = false
          | _ => True
          end
      | EResume k e =>
          match nth_error (tasks s) k with
          | Some t => match t_phase t with PPost _ => exists v, e = Fine v | _ => True end
          | None => True
          end
      | ESend _ _ => True
      end /\ gentle (step s ev) evs'
  end.

Lemma spec_live_snoc : forall l e u, spec_live (l ++ [e]) u = live_after (spec_live l u) u e.
Proof. intros. unfold spec_live. now rewrite fold_left_app. Qed.

Record RInv (s : pool) : Prop := {
  r_one : forall u k1 k2 t1 t2, nth_error (tasks s) k1 = Some t1 -> nth_error (tasks s) k2 = Some t2 ->
      concerns u t1 = true -> concerns u t2 = true -> k1 = k2;
  r_post : forall u k t, nth_error (tasks s) k = Some t -> t_phase t = PPost u ->
      dmem (actors s) u = true /\ spec_live (log s) u = false;
  r_pre : forall u k t, nth_error (tasks s) k = Some t -> t_phase t = PPre u -> dmem (actors s) u = true;
  r_live : forall u, (forall k t, nth_error (tasks s) k = Some t -> t_phase t <> PPost u) ->
      dmem (actors s) u = spec_live (log s) u
}.

Lemma dmem_dset : forall d k v k', dmem (V:=nat) (dset d k v) k' = (k =? k') || dmem d k'.
Proof. intros. unfold dmem. rewrite dget_dset. destruct (k =? k'); auto. Qed.
Lemma dmem_ddel : forall d k k', dmem (V:=nat) (ddel d k) k' = negb (k =? k') && dmem d k'.
Proof. intros. unfold dmem. rewrite dget_ddel. destruct (k =? k'); auto. Qed.

Lemma busy_false : forall s u, busy s u = false ->
  forall k t, nth_error (tasks s) k = Some t -> concerns u t = false.
Proof.
  intros s u H k t N. destruct (concerns u t) eqn:C; auto.
  assert (busy s u = true); [|congruence]. unfold busy. apply existsb_exists. exists t.
  split; auto. eapply nth_error_In; eauto.
Qed.

(** Changing one task from/to a phase that concerns nobody, registry and
    (relevant) log unchanged. *)
Lemma rinv_congr : forall s s',
  RInv s ->
  (forall k t', nth_error (tasks s') k = Some t' ->
     (exists t, nth_error (tasks s) k = Some t /\ t_phase t' = t_phase t) \/
     (forall u, t_phase t' <> PPost u /\ t_phase t' <> PPre u)) ->
  (forall k t u, nth_error (tasks s) k = Some t -> t_phase t = PPost u ->
     exists t', nth_error (tasks s') k = Some t' /\ t_phase t' = PPost u) ->
  (forall u, dmem (actors s') u = dmem (actors s) u) ->
  (forall u, spec_live (log s') u = spec_live (log s) u) ->
  RInv s'.
Proof.
  intros s s' R H1 H2 HA HL. constructor.
  - intros u k1 k2 t1 t2 N1 N2 C1 C2.
    destruct (H1 _ _ N1) as [[t1' [M1 P1]]|Q1]; [|exfalso; unfold concerns in C1; destruct (t_phase t1) eqn:X; try discriminate; destruct (Q1 uid); congruence].
    destruct (H1 _ _ N2) as [[t2' [M2 P2]]|Q2]; [|exfalso; unfold concerns in C2; destruct (t_phase t2) eqn:X; try discriminate; destruct (Q2 uid); congruence].
    unfold concerns in *. rewrite P1 in C1. rewrite P2 in C2. eapply (r_one s R u); eauto.
  - intros u k t N P. rewrite HA, HL. destruct (H1 _ _ N) as [[t0 [M P0]]|Q]; [|destruct (Q u); congruence].
    eapply r_post; eauto. congruence.
  - intros u k t N P. rewrite HA. destruct (H1 _ _ N) as [[t0 [M P0]]|Q]; [|destruct (Q u); congruence].
    eapply r_pre; eauto. congruence.
  - intros u H. rewrite HA, HL. apply (r_live s R). intros k t N P.
    destruct (H2 k t u N P) as [t' [N' P']]. exact (H _ _ N' P').
Qed.

Lemma step_rinv : forall s ev, Inv s -> RInv s -> gentle s [ev] -> RInv (step s ev).
Proof.
  intros s ev I R [G _]. destruct ev as [r|k e|k o]; cbn [step].
  - (* EStart *)
    set (n := length (tasks s)) in *.
    assert (Snoc : forall t', forall k t, nth_error (tasks s ++ [t']) k = Some t ->
        (nth_error (tasks s) k = Some t) \/ (k = n /\ t = t')).
    { intros t' k t N. destruct (Nat.lt_ge_cases k n) as [L|L].
      - rewrite nth_error_app1 in N; auto.
      - rewrite nth_error_app2 in N; auto. destruct (k - length (tasks s)) eqn:E; simpl in N; [|destruct n0; discriminate].
        inversion N; subst. right. split; auto. unfold n in *. lia. }
    assert (Plain : forall s1 t' lg pr, (forall u, t_phase t' <> PPost u /\ t_phase t' <> PPre u) ->
       length (tasks s1) = n ->
       (forall k t, nth_error (tasks s1) k = Some t ->
          exists t0 c, nth_error (tasks s) k = Some t0 /\ t = Task (t_req t0) (t_phase t0) (t_result t0) (t_sends t0) c) ->
       (forall k t, nth_error (tasks s) k = Some t -> exists t1, nth_error (tasks s1) k = Some t1 /\ t_phase t1 = t_phase t) ->
       actors s1 = actors s ->
       (forall u, spec_live lg u = spec_live (log s) u) ->
       RInv (Pool (actors s1) (made s1) pr (tasks s1 ++ [t']) lg (wire s1))).
    { intros s1 t' lg pr Q L T T' A HL. apply (rinv_congr s); auto; cbn [tasks actors log].
      - intros k t N. destruct (Nat.lt_ge_cases k n) as [Lk|Lk].
        + rewrite nth_error_app1 in N by lia. destruct (T _ _ N) as [t0 [c [N0 ->]]]. left. exists t0. auto.
        + rewrite nth_error_app2 in N by lia. destruct (k - length (tasks s1)); simpl in N; [|destruct n0; discriminate].
          inversion N; subst. right. auto.
      - intros k t u N P. destruct (T' _ _ N) as [t1 [N1 P1]]. exists t1. split; [|congruence].
        rewrite nth_error_app1; auto. apply nth_error_Some. congruence.
      - intros u. now rewrite A. }
    assert (IdT : forall k t, nth_error (tasks s) k = Some t ->
          exists t0 c, nth_error (tasks s) k = Some t0 /\ t = Task (t_req t0) (t_phase t0) (t_result t0) (t_sends t0) c).
    { intros k t N. exists t, (t_cancel t). split; auto. now destruct t. }
    assert (NoB : forall b, forall u, PSend b true <> PPost u /\ PSend b true <> PPre u) by (split; discriminate).
    Ltac plain K := match goal with Plain : forall s1 t' lg pr, _ |- _ => apply Plain end;
      [ split; discriminate | auto | auto | eauto | auto
      | intros; rewrite ?spec_live_snoc; unfold live_after; simpl; rewrite ?K; auto ].
    destruct (r_kind r) as [u ok|u|u|u|u|u|m|] eqn:K; unfold handler_start; rewrite ?K.
    + (* create *)
      destruct (dmem (actors s) u) eqn:D.
      { plain K. }
      destruct ok.
      * cbn [actors made procs tasks log wire].
        assert (Bz : forall k t, nth_error (tasks s) k = Some t -> concerns u t = false) by now apply busy_false.
        assert (NP : forall k t, nth_error (tasks s) k = Some t -> t_phase t <> PPost u).
        { intros k t N P. specialize (Bz _ _ N). unfold concerns in Bz. rewrite P, Nat.eqb_refl in Bz. discriminate. }
        constructor; cbn [actors tasks log].
        -- intros u' k1 k2 t1 t2 N1 N2 C1 C2.
           destruct (Snoc _ _ _ N1) as [N1'|[-> ->]], (Snoc _ _ _ N2) as [N2'|[-> ->]]; auto.
           ++ eapply (r_one s R u'); eauto.
           ++ unfold concerns in C2. simpl in C2. apply Nat.eqb_eq in C2. subst u'. rewrite (Bz _ _ N1') in C1. discriminate.
           ++ unfold concerns in C1. simpl in C1. apply Nat.eqb_eq in C1. subst u'. rewrite (Bz _ _ N2') in C2. discriminate.
        -- intros u' k t N P. rewrite dmem_dset. destruct (Snoc _ _ _ N) as [N'|[-> ->]].
           ++ destruct (r_post s R _ _ _ N' P) as [Q1 Q2]. rewrite Q1, orb_true_r. auto.
           ++ simpl in P. inversion P; subst u'. rewrite Nat.eqb_refl. split; auto.
              rewrite <- (r_live s R u NP). exact D.
        -- intros u' k t N P. rewrite dmem_dset. destruct (Snoc _ _ _ N) as [N'|[-> ->]].
           ++ rewrite (r_pre s R _ _ _ N' P). apply orb_true_r.
           ++ discriminate.
        -- intros u' H. assert (u <> u').
           { intros <-. apply (H n (Task r (PPost u) None [] false)); auto.
             rewrite nth_error_app2, Nat.sub_diag by auto. reflexivity. }
           rewrite dmem_dset. destruct (Nat.eqb_spec u u'); [congruence|]. simpl. apply (r_live s R).
           intros k t N. apply (H k t). rewrite nth_error_app1; auto. apply nth_error_Some. congruence.
      * plain K.
    + plain K.
    + (* destroy *)
      destruct (dmem (actors s) u) eqn:D.
      * assert (Bz : forall k t, nth_error (tasks s) k = Some t -> concerns u t = false) by now apply busy_false.
        constructor; cbn [actors tasks log].
        -- intros u' k1 k2 t1 t2 N1 N2 C1 C2.
           destruct (Snoc _ _ _ N1) as [N1'|[-> ->]], (Snoc _ _ _ N2) as [N2'|[-> ->]]; auto.
           ++ eapply (r_one s R u'); eauto.
           ++ unfold concerns in C2. simpl in C2. apply Nat.eqb_eq in C2. subst u'. rewrite (Bz _ _ N1') in C1. discriminate.
           ++ unfold concerns in C1. simpl in C1. apply Nat.eqb_eq in C1. subst u'. rewrite (Bz _ _ N2') in C2. discriminate.
        -- intros u' k t N P. destruct (Snoc _ _ _ N) as [N'|[-> ->]]; [eapply r_post; eauto|discriminate].
        -- intros u' k t N P. destruct (Snoc _ _ _ N) as [N'|[-> ->]]; [eapply r_pre; eauto|].
           simpl in P. inversion P; subst. exact D.
        -- intros u' H. apply (r_live s R). intros k t N. apply (H k t).
           rewrite nth_error_app1; auto. apply nth_error_Some. congruence.
      * plain K.
    + plain K.
    + destruct (dmem (actors s) u); plain K.
    + destruct (dmem (actors s) u); plain K.
    + (* cancel *)
      assert (HL : forall b u', spec_live (log s ++ [(r, b)]) u' = spec_live (log s) u')
        by (intros; rewrite spec_live_snoc; unfold live_after; simpl; now rewrite K).
      destruct (dget (procs s) m) as [k0|] eqn:D; [|plain K].
      destruct (nth_error (tasks s) k0) as [t0|] eqn:N0; [|plain K].
      set (s1 := Pool (actors s) (made s) (procs s)
                (lset (tasks s) k0 (Task (t_req t0) (t_phase t0) (t_result t0) (t_sends t0) true)) (log s) (wire s)).
      apply (Plain s1); auto.
      * split; discriminate.
      * unfold s1. cbn [tasks]. now rewrite lset_length.
      * unfold s1. cbn [tasks]. intros k t E. rewrite nth_error_lset in E. destruct (Nat.eqb_spec k0 k); auto.
        destruct (k0 <? length (tasks s)); inversion E; subst. exists t0, true. auto.
      * unfold s1. cbn [tasks]. intros k t E. rewrite nth_error_lset. destruct (Nat.eqb_spec k0 k); eauto.
        subst. rewrite N0 in E. inversion E; subst. destruct (Nat.ltb_spec k (length (tasks s))); eauto.
        exfalso. assert (k < length (tasks s)) by (apply nth_error_Some; congruence). lia.
    + plain K.
  - (* EResume *)
    destruct (nth_error (tasks s) k) as [t|] eqn:N; auto.
    assert (Lk : k < length (tasks s)) by (apply nth_error_Some; congruence).
    pose proof (inv_task _ I _ _ N) as OK. unfold task_ok in OK.
    assert (Other : forall s1 b, tasks s1 = tasks s -> actors s1 = actors s ->
      (forall u, t_phase t <> PPost u) ->
      (forall u, spec_live (log s ++ [(t_req t, b)]) u = spec_live (log s) u) -> log s1 = log s ->
      RInv (Pool (actors s1) (made s1) (ddel (procs s1) (r_id (t_req t)))
             (lset (tasks s1) k (set_phase t (PSend b true) (Some b) (t_sends t)))
             (log s1 ++ [(t_req t, b)]) (wire s1))).
    { intros s1 b T A NP HL Lg. apply (rinv_congr s); auto; cbn [tasks actors log]; rewrite ?T, ?A, ?Lg; auto.
      - intros k' t' N'. rewrite nth_error_lset in N'. destruct (Nat.eqb_spec k k').
        + destruct (k <? length (tasks s)); inversion N'; subst. right. split; discriminate.
        + left. exists t'. auto.
      - intros k' t' u N' P'. rewrite nth_error_lset. destruct (Nat.eqb_spec k k'); [|eauto].
        subst. rewrite N in N'. inversion N'; subst. exfalso. exact (NP u P'). }
    destruct (t_phase t) as [u|u| | |b rs|] eqn:Ph; auto.
    + (* post create *)
      simpl. destruct G as [v ->]. destruct OK as [_ [_ [_ [c Kd]]]].
      destruct (r_post s R _ _ _ N Ph) as [D1 D2].
      assert (LA : forall u', spec_live (log s ++ [(t_req t, BRef u)]) u'
                  = if u =? u' then true else spec_live (log s) u').
      { intros u'. rewrite spec_live_snoc. unfold live_after. simpl. now rewrite Kd. }
      assert (Back : forall u' k' t', nth_error (lset (tasks s) k (set_phase t (PSend (BRef u) true) (Some (BRef u)) (t_sends t))) k' = Some t' ->
         concerns u' t' = true -> nth_error (tasks s) k' = Some t' /\ k' <> k).
      { intros u' k' t' N' C'. rewrite nth_error_lset in N'. destruct (Nat.eqb_spec k k'); [|split; auto].
        destruct (k <? length (tasks s)); inversion N'; subst. discriminate. }
      constructor; cbn [tasks actors log].
      * intros u' k1 k2 t1 t2 N1 N2 C1 C2.
        destruct (Back _ _ _ N1 C1), (Back _ _ _ N2 C2). eapply (r_one s R u'); eauto.
      * intros u' k' t' N' P'. rewrite LA.
        destruct (Back u' _ _ N') as [N0 Nk]; [unfold concerns; rewrite P'; apply Nat.eqb_refl|].
        destruct (r_post s R _ _ _ N0 P') as [Q1 Q2]. split; auto. destruct (Nat.eqb_spec u u'); auto.
        subst u'. exfalso. apply Nk. symmetry. eapply (r_one s R u); eauto; unfold concerns; rewrite ?Ph, ?P'; apply Nat.eqb_refl.
      * intros u' k' t' N' P'.
        destruct (Back u' _ _ N') as [N0 Nk]; [unfold concerns; rewrite P'; apply Nat.eqb_refl|].
        eapply r_pre; eauto.
      * intros u' H. rewrite LA. destruct (Nat.eqb_spec u u'); [congruence|].
        apply (r_live s R). intros k' t' N' P'. destruct (Nat.eq_dec k k').
        -- subst. rewrite N in N'. inversion N'; subst. congruence.
        -- apply (H k' t'); auto. rewrite nth_error_lset. destruct (Nat.eqb_spec k k'); congruence.
    + (* pre destroy *)
      destruct OK as [_ [_ [_ Kd]]].
      pose proof (r_pre s R _ _ _ N Ph) as D.
      destruct e as [v|x|]; simpl.
      * rewrite D. cbn [actors made procs tasks log wire].
        assert (LA : forall u', spec_live (log s ++ [(t_req t, BUid u)]) u'
                    = if u =? u' then false else spec_live (log s) u').
        { intros u'. rewrite spec_live_snoc. unfold live_after. simpl. now rewrite Kd. }
        assert (Back : forall u' k' t', nth_error (lset (tasks s) k (set_phase t (PSend (BUid u) true) (Some (BUid u)) (t_sends t))) k' = Some t' ->
           concerns u' t' = true -> nth_error (tasks s) k' = Some t' /\ k' <> k /\ u' <> u).
        { intros u' k' t' N' C'. rewrite nth_error_lset in N'. destruct (Nat.eqb_spec k k').
          - destruct (k <? length (tasks s)); inversion N'; subst. discriminate.
          - repeat split; auto. intros ->. apply n. eapply (r_one s R u); eauto. unfold concerns. rewrite Ph. apply Nat.eqb_refl. }
        constructor; cbn [tasks actors log].
        -- intros u' k1 k2 t1 t2 N1 N2 C1 C2.
           destruct (Back _ _ _ N1 C1) as [? _], (Back _ _ _ N2 C2) as [? _]. eapply (r_one s R u'); eauto.
        -- intros u' k' t' N' P'. rewrite LA, dmem_ddel.
           destruct (Back u' _ _ N') as [N0 [Nk Nu]]; [unfold concerns; rewrite P'; apply Nat.eqb_refl|].
           destruct (r_post s R _ _ _ N0 P') as [Q1 Q2]. destruct (Nat.eqb_spec u u'); [congruence|]. auto.
        -- intros u' k' t' N' P'. rewrite dmem_ddel.
           destruct (Back u' _ _ N') as [N0 [Nk Nu]]; [unfold concerns; rewrite P'; apply Nat.eqb_refl|].
           rewrite (r_pre s R _ _ _ N0 P'). destruct (Nat.eqb_spec u u'); [congruence|]. auto.
        -- intros u' H. rewrite LA, dmem_ddel. destruct (Nat.eqb_spec u u'); simpl; auto.
           apply (r_live s R). intros k' t' N' P'. destruct (Nat.eq_dec k k').
           ++ subst. rewrite N in N'. inversion N'; subst. congruence.
           ++ apply (H k' t'); auto. rewrite nth_error_lset. destruct (Nat.eqb_spec k k'); congruence.
      * apply (Other s (BErr (XUser x))); auto; try discriminate.
        intros u'. rewrite spec_live_snoc. unfold live_after. simpl. now rewrite Kd.
      * apply (Other s (BErr XCancelled)); auto; try discriminate.
        intros u'. rewrite spec_live_snoc. unfold live_after. simpl. now rewrite Kd.
    + destruct OK as [_ [_ [_ [u Kd]]]]. simpl.
      apply (Other s); auto; try discriminate.
      intros u'. rewrite spec_live_snoc. unfold live_after. simpl. now rewrite Kd.
    + destruct OK as [_ [_ [_ [u Kd]]]]. simpl.
      apply (Other s); auto; try discriminate.
      intros u'. rewrite spec_live_snoc. unfold live_after. simpl. now rewrite Kd.
  - (* ESend *)
    destruct (nth_error (tasks s) k) as [t|] eqn:N; auto.
    destruct (t_phase t) as [| | | |b rs|] eqn:Ph; auto.
    assert (Oth : forall p w, (forall u, p <> PPost u /\ p <> PPre u) ->
      RInv (Pool (actors s) (made s) (procs s)
            (lset (tasks s) k (set_phase t p (t_result t) (t_sends t ++ [o]))) (log s) w)).
    { intros p w Q. apply (rinv_congr s); auto; cbn [tasks actors log].
      - intros k' t' N'. rewrite nth_error_lset in N'. destruct (Nat.eqb_spec k k').
        + destruct (k <? length (tasks s)); inversion N'; subst. right. exact Q.
        + left. exists t'. auto.
      - intros k' t' u N' P'. rewrite nth_error_lset. destruct (Nat.eqb_spec k k'); [|eauto].
        subst. rewrite N in N'. inversion N'; subst. congruence. }
    destruct o; [| |destruct rs]; apply Oth; split; discriminate.
Qed.

Lemma rinv_init : RInv init.
Proof.
  constructor; simpl; intros; try (destruct k; discriminate); try (destruct k1; discriminate).
  reflexivity.
Qed.

Lemma run_rinv : forall evs s, Inv s -> RInv s -> gentle s evs -> RInv (run s evs).
Proof.
  induction evs as [|ev evs IH]; simpl; intros s I R G; auto.
  destruct G as [G1 G2]. apply IH; auto using step_inv.
  apply step_rinv; auto. simpl. auto.
Qed.

(** ** Running requests *)

Definition mids (s : pool) : list nat := map (fun t => r_id (t_req t)) (tasks s).

Record PInv (s : pool) : Prop := {
  p_sound : forall m k, dget (procs s) m = Some k ->
     exists t, nth_error (tasks s) k = Some t /\ r_id (t_req t) = m /\ suspended (t_phase t) = true;
  p_complete : forall k t, nth_error (tasks s) k = Some t -> suspended (t_phase t) = true ->
     dget (procs s) (r_id (t_req t)) = Some k
}.

Lemma mids_lset : forall s k t t', nth_error (tasks s) k = Some t -> t_req t' = t_req t ->
  map (fun t => r_id (t_req t)) (lset (tasks s) k t') = mids s.
Proof.
  intros s k t t' N E. apply nth_error_ext. intros i. unfold mids.
  rewrite !nth_error_map, nth_error_lset. destruct (Nat.eqb_spec k i); auto.
  subst. rewrite N. simpl. destruct (Nat.ltb_spec i (length (tasks s))).
  - simpl. now rewrite E.
  - exfalso. assert (i < length (tasks s)) by (apply nth_error_Some; congruence). lia.
Qed.

Lemma step_mids : forall s ev, exists l, mids (step s ev) = mids s ++ l.
Proof.
  intros s ev. destruct ev as [r|k e|k o]; cbn [step].
  - assert (H : forall s1 f, handler_start s r = (s1, f) -> mids s1 = mids s).
    { intros s1 f E. destruct (handler_start_spec _ _ _ _ E) as [L [_ [_ [_ T]]]].
      apply nth_error_ext. intros i. unfold mids. rewrite !nth_error_map.
      destruct (nth_error (tasks s1) i) as [t|] eqn:N.
      - destruct (T _ _ N) as [t0 [c [N0 ->]]]. rewrite N0. reflexivity.
      - apply nth_error_None in N. destruct (nth_error (tasks s) i) eqn:N'; auto.
        assert (i < length (tasks s)) by (apply nth_error_Some; congruence). lia. }
    exists [r_id r]. destruct (handler_start s r) as [s1 f] eqn:E. specialize (H _ _ eq_refl).
    destruct (r_kind r); try (destruct f); unfold mids in *; cbn [tasks]; rewrite map_app, ?H; reflexivity.
  - exists []. rewrite app_nil_r. destruct (nth_error (tasks s) k) as [t|] eqn:N; auto.
    assert (G : forall b, forall s1, tasks s1 = tasks s -> forall x1 x2 x3 x4 x5,
       mids (Pool x1 x2 x3 (lset (tasks s1) k (set_phase t (PSend b true) (Some b) (t_sends t))) x4 x5) = mids s).
    { intros b s1 T x1 x2 x3 x4 x5. unfold mids at 1. cbn [tasks]. rewrite T. eapply mids_lset; eauto. }
    destruct (t_phase t) eqn:P; auto; destruct (handler_end s _ e) as [s1 b] eqn:E;
      destruct (handler_end_spec _ _ _ _ _ E) as [T _]; now apply G.
  - exists []. rewrite app_nil_r. destruct (nth_error (tasks s) k) as [t|] eqn:N; auto.
    destruct (t_phase t) eqn:P; auto.
    destruct o; [| |destruct resend_failure]; unfold mids at 1; cbn [tasks]; eapply mids_lset; eauto.
Qed.

Lemma NoDup_prefix : forall A (l l' : list A), NoDup (l ++ l') -> NoDup l.
Proof.
  induction l; intros l' H; [constructor|]. simpl in H. inversion H; subst. constructor; eauto.
  intros I. apply H2, in_or_app. auto.
Qed.

Lemma mids_inj : forall s k1 k2 t1 t2, NoDup (mids s) ->
  nth_error (tasks s) k1 = Some t1 -> nth_error (tasks s) k2 = Some t2 ->
  r_id (t_req t1) = r_id (t_req t2) -> k1 = k2.
Proof.
  intros s k1 k2 t1 t2 ND N1 N2 E. apply (NoDup_nth_error (mids s)); auto.
  - unfold mids. rewrite map_length. apply nth_error_Some. congruence.
  - unfold mids. rewrite !nth_error_map, N1, N2. simpl. now rewrite E.
Qed.

Lemma step_pinv : forall s ev, PInv s -> NoDup (mids (step s ev)) -> PInv (step s ev).
Proof.
  intros s ev P ND.
  assert (ND0 : NoDup (mids s)) by (destruct (step_mids s ev) as [l E]; rewrite E in ND; eauto using NoDup_prefix).
  destruct ev as [r|k e|k o]; cbn [step] in *.
  - assert (Key : forall s1 f, handler_start s r = (s1, f) ->
      NoDup (map (fun t => r_id (t_req t)) (tasks s1) ++ [r_id r]) ->
      forall p res pr lg,
        pr = (if suspended p then dset (procs s) (r_id r) (length (tasks s)) else ddel (procs s) (r_id r)) \/
        (suspended p = false /\ pr = procs s) ->
        PInv (Pool (actors s1) (made s1) pr (tasks s1 ++ [Task r p res [] false]) lg (wire s1))).
    { intros s1 f E ND' p res pr lg Hpr.
      destruct (handler_start_spec _ _ _ _ E) as [L [_ [_ [_ T]]]].
      assert (Fwd : forall k t, nth_error (tasks s) k = Some t ->
         exists t1, nth_error (tasks s1) k = Some t1 /\ t_req t1 = t_req t /\ t_phase t1 = t_phase t).
      { intros k t N. destruct (nth_error (tasks s1) k) as [t1|] eqn:N1.
        - destruct (T _ _ N1) as [t0 [c [N0 ->]]]. rewrite N in N0. inversion N0; subst. eexists; eauto.
        - apply nth_error_None in N1. assert (k < length (tasks s)) by (apply nth_error_Some; congruence). lia. }
      assert (Fresh : forall k t, nth_error (tasks s) k = Some t -> r_id (t_req t) <> r_id r).
      { intros k t N Eq. destruct (Fwd _ _ N) as [t1 [N1 [R1 _]]].
        apply NoDup_remove_2 in ND'. rewrite app_nil_r in ND'. apply ND'.
        apply in_map_iff. exists t1. split; [congruence|]. eapply nth_error_In; eauto. }
      constructor; cbn [procs tasks].
      - intros m k D.
        assert (D' : (m = r_id r /\ k = length (tasks s) /\ suspended p = true) \/ dget (procs s) m = Some k).
        { destruct Hpr as [->|[_ ->]]; auto. destruct (suspended p) eqn:Sp.
          - rewrite dget_dset in D. destruct (Nat.eqb_spec (r_id r) m); auto. inversion D; subst. auto.
          - rewrite dget_ddel in D. destruct (Nat.eqb_spec (r_id r) m); auto. discriminate. }
        destruct D' as [[-> [-> Sp]]|D'].
        + exists (Task r p res [] false). rewrite nth_error_app2 by lia. rewrite L, Nat.sub_diag. auto.
        + destruct (p_sound _ P _ _ D') as [t [N [E1 E2]]].
          destruct (Fwd _ _ N) as [t1 [N1 [R1 P1]]]. exists t1.
          rewrite nth_error_app1 by (apply nth_error_Some; congruence). rewrite R1, P1. auto.
      - intros k t N Su. destruct (Nat.lt_ge_cases k (length (tasks s))) as [Lk|Lk].
        + rewrite nth_error_app1 in N by lia. destruct (T _ _ N) as [t0 [c [N0 ->]]]. simpl in *.
          pose proof (p_complete _ P _ _ N0 Su) as D. pose proof (Fresh _ _ N0) as Fr.
          destruct Hpr as [->|[_ ->]]; auto. destruct (suspended p).
          * rewrite dget_dset_neq; auto.
          * rewrite dget_ddel_neq; auto.
        + rewrite nth_error_app2 in N by lia. destruct (k - length (tasks s1)) eqn:Ek; simpl in N; [|destruct n; discriminate].
          inversion N; subst t. simpl in *. destruct Hpr as [->|[Sp ->]]; [|congruence].
          rewrite Su, dget_dset_eq. f_equal. lia. }
    destruct (handler_start s r) as [s1 f] eqn:E.
    pose proof (handler_start_spec _ _ _ _ E) as [_ [_ [_ [Pr _]]]].
    destruct (r_kind r) eqn:K;
      try (destruct f as [p|b]; unfold mids in ND; cbn [tasks] in ND; rewrite map_app in ND; simpl in ND;
           rewrite Pr; (eapply Key; [reflexivity|exact ND|]);
           [pose proof (handler_start_phase _ _ _ _ E) as Hp; left; destruct p; try contradiction; reflexivity
           | left; reflexivity]; fail).
    assert (s1 = s) by (unfold handler_start in E; rewrite K in E; inversion E; auto). subst s1.
    unfold mids in ND; cbn [tasks] in ND; rewrite map_app in ND; simpl in ND.
    eapply Key; eauto.
  - destruct (nth_error (tasks s) k) as [t|] eqn:N; auto.
    assert (Lk : k < length (tasks s)) by (apply nth_error_Some; congruence).
    assert (Su : suspended (t_phase t) = true -> forall s1 b, tasks s1 = tasks s -> procs s1 = procs s ->
      forall x1 x2 x4 x5,
      PInv (Pool x1 x2 (ddel (procs s1) (r_id (t_req t)))
            (lset (tasks s1) k (set_phase t (PSend b true) (Some b) (t_sends t))) x4 x5)).
    { intros Sp s1 b T Pr x1 x2 x4 x5. rewrite T, Pr. constructor; cbn [procs tasks].
      - intros m k' D. rewrite dget_ddel in D. destruct (Nat.eqb_spec (r_id (t_req t)) m); [discriminate|].
        destruct (p_sound _ P _ _ D) as [t' [N' [E1 E2]]]. exists t'. split; auto.
        rewrite nth_error_lset. destruct (Nat.eqb_spec k k'); auto. subst. congruence.
      - intros k' t' N' Sp'. rewrite nth_error_lset in N'. destruct (Nat.eqb_spec k k').
        + destruct (k <? length (tasks s)); inversion N'; subst. discriminate.
        + rewrite dget_ddel. destruct (Nat.eqb_spec (r_id (t_req t)) (r_id (t_req t'))).
          * exfalso. apply n. eapply mids_inj; eauto.
          * eapply p_complete; eauto. }
    destruct (t_phase t) eqn:Ph; auto; destruct (handler_end s _ e) as [s1 b] eqn:E;
      destruct (handler_end_spec _ _ _ _ _ E) as [T [_ [_ Pr]]]; apply Su; auto.
  - destruct (nth_error (tasks s) k) as [t|] eqn:N; auto.
    destruct (t_phase t) eqn:Ph; auto.
    assert (Oth : forall p w, suspended p = false ->
      PInv (Pool (actors s) (made s) (procs s)
            (lset (tasks s) k (set_phase t p (t_result t) (t_sends t ++ [o]))) (log s) w)).
    { intros p w Sp. constructor; cbn [procs tasks].
      - intros m k' D. destruct (p_sound _ P _ _ D) as [t' [N' [E1 E2]]]. exists t'. split; auto.
        rewrite nth_error_lset. destruct (Nat.eqb_spec k k'); auto. subst. rewrite N in N'. inversion N'; subst.
        rewrite Ph in E2. discriminate.
      - intros k' t' N' Sp'. rewrite nth_error_lset in N'. destruct (Nat.eqb_spec k k').
        + destruct (k <? length (tasks s)); inversion N'; subst. simpl in Sp'. congruence.
        + eapply p_complete; eauto. }
    destruct o; [| |destruct resend_failure]; apply Oth; reflexivity.
Qed.

Lemma reach_pinv : forall evs, NoDup (mids (run init evs)) -> PInv (run init evs).
Proof.
  intros evs. induction evs as [|ev evs IH] using rev_ind; intros ND.
  - constructor; simpl; [discriminate|intros [|k] t; discriminate].
  - rewrite run_app in *. simpl in *. apply step_pinv; auto. apply IH.
    destruct (step_mids (run init evs) ev) as [l E]. rewrite E in ND. eauto using NoDup_prefix.
Qed.
