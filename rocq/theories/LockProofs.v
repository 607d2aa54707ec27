From Coq Require Import List Arith Bool Lia.
From Verif Require Import LockModel.
Import ListNotations.

Definition live (p : nat * wst) : bool := match snd p with Wp | Ww => true | _ => false end.
Definition woken (s : wst) : bool := match s with Ww | Wwc => true | _ => false end.

Record Inv (s : lock) : Prop := {
  i_inside : length (inside s) = if locked s then 1 else 0;
  i_head : locked s = false -> match waiters s with (_, Wp) :: _ => False | _ => True end;
  i_headlk : locked s = true -> forallb (fun p => negb (woken (snd p))) (waiters s) = true;
  i_tail : forallb (fun p => negb (woken (snd p))) (tl (waiters s)) = true;
  i_nodup : NoDup (map fst (waiters s));
  i_nodupA : NoDup (arrivals s);
  i_arr : forall t, In t (map fst (waiters s)) -> In t (arrivals s);
  i_insarr : forall t, In t (inside s) -> In t (arrivals s);
  i_gone : forall t, In t (gone s) -> In t (arrivals s);
  i_gonew : forall t st, In (t, st) (waiters s) -> (In t (gone s) <-> live (t, st) = false);
  i_order : filter (fun t => negb (mem t (gone s))) (arrivals s)
            = starts s ++ map fst (filter live (waiters s))
}.

Lemma mem_In : forall t l, mem t l = true <-> In t l.
Proof.
  intros t l. unfold mem. rewrite existsb_exists. split.
  - intros [x [H1 H2]]. apply Nat.eqb_eq in H2. now subst.
  - intros H. exists t. split; auto. apply Nat.eqb_refl.
Qed.
Lemma mem_false : forall t l, mem t l = false <-> ~ In t l.
Proof. intros. rewrite <- mem_In. destruct (mem t l); intuition congruence. Qed.

Lemma lookup_In : forall w t s, lookup w t = Some s -> In (t, s) w.
Proof.
  intros w t s H. unfold lookup in H. destruct (find (fun p => fst p =? t) w) as [[x y]|] eqn:F; [|discriminate].
  inversion H; subst. apply find_some in F. destruct F as [F1 F2]. simpl in F2.
  apply Nat.eqb_eq in F2. now subst.
Qed.

Lemma lookup_nodup : forall w t s, NoDup (map fst w) -> In (t, s) w -> lookup w t = Some s.
Proof.
  unfold lookup. induction w as [|[x y] w IH]; simpl; intros t s N I; [tauto|].
  inversion N as [|? ? N1 N2]; subst. destruct I as [I|I].
  - inversion I; subst. now rewrite Nat.eqb_refl.
  - destruct (Nat.eqb_spec x t).
    + exfalso. subst. apply N1. apply in_map_iff. exists (t, s). auto.
    + apply IH; auto.
Qed.

Lemma in_unique : forall (w : list (nat * wst)) t s s', NoDup (map fst w) ->
  In (t, s) w -> In (t, s') w -> s = s'.
Proof.
  intros w t s s' N I I'. pose proof (lookup_nodup w t s N I). pose proof (lookup_nodup w t s' N I'). congruence.
Qed.

Lemma remove_waiter_In : forall w t x s, In (x, s) (remove_waiter w t) <-> x <> t /\ In (x, s) w.
Proof.
  intros. unfold remove_waiter. rewrite filter_In. simpl.
  destruct (Nat.eqb_spec x t); simpl; intuition congruence.
Qed.

Lemma remove_waiter_notin : forall w t, ~ In t (map fst w) -> remove_waiter w t = w.
Proof.
  unfold remove_waiter. induction w as [|[x y] w IH]; simpl; intros t H; auto.
  destruct (Nat.eqb_spec x t); simpl; [tauto|]. f_equal. apply IH. tauto.
Qed.

Lemma remove_waiter_nodup : forall w t, NoDup (map fst w) -> NoDup (map fst (remove_waiter w t)).
Proof.
  unfold remove_waiter. induction w as [|[x y] w IH]; simpl; intros t H; auto.
  inversion H; subst. destruct (Nat.eqb_spec x t); simpl; auto. constructor; auto.
  intros I. apply H2. apply in_map_iff in I. destruct I as [[a b] [E I]]. simpl in E; subst.
  apply filter_In in I. apply in_map_iff. exists (x, b). intuition.
Qed.

Lemma forallb_remove : forall f w t, forallb f w = true -> forallb f (remove_waiter w t) = true.
Proof.
  intros f w t H. apply forallb_forall. intros x I. unfold remove_waiter in I. apply filter_In in I.
  rewrite forallb_forall in H. apply H. tauto.
Qed.

Lemma forallb_tl : forall A (f : A -> bool) l, forallb f l = true -> forallb f (tl l) = true.
Proof. intros A f [|x l]; simpl; auto. intros H. apply andb_true_iff in H. tauto. Qed.

Lemma wake_fst : forall w, map fst (wake_up_first w) = map fst w.
Proof. intros [|[t []] w]; reflexivity. Qed.
Lemma wake_live : forall w, map fst (filter live (wake_up_first w)) = map fst (filter live w).
Proof. intros [|[t []] w]; reflexivity. Qed.
Lemma wake_tl : forall w, tl (wake_up_first w) = tl w.
Proof. intros [|[t []] w]; reflexivity. Qed.
Lemma wake_head : forall w, match wake_up_first w with (_, Wp) :: _ => False | _ => True end.
Proof. intros [|[t []] w]; simpl; auto. Qed.
Lemma wake_In : forall w t s, In (t, s) (wake_up_first w) ->
  exists s', In (t, s') w /\ live (t, s) = live (t, s').
Proof.
  intros [|[x []] w] t s; simpl; intros H; try tauto; destruct H as [H|H]; try (inversion H; subst); eauto.
Qed.

Lemma set_wst_fst : forall w t s, map fst (set_wst w t s) = map fst w.
Proof.
  unfold set_wst. induction w as [|[x y] w IH]; simpl; intros; auto.
  destruct (Nat.eqb_spec x t); simpl; rewrite IH; congruence.
Qed.

Lemma set_wst_In : forall w t s x y, In (x, y) (set_wst w t s) ->
  (x = t /\ y = s) \/ (x <> t /\ In (x, y) w).
Proof.
  unfold set_wst. induction w as [|[a b] w IH]; simpl; intros t s x y H; [tauto|].
  destruct (Nat.eqb_spec a t); simpl in H.
  - destruct H as [H|H]; [inversion H; subst; auto|]. destruct (IH _ _ _ _ H) as [|[]]; auto.
  - destruct H as [H|H]; [inversion H; subst; auto|]. destruct (IH _ _ _ _ H) as [|[]]; auto.
Qed.

Lemma set_wst_notin : forall w t s, ~ In t (map fst w) -> set_wst w t s = w.
Proof.
  unfold set_wst. induction w as [|[x y] w IH]; simpl; intros t s H; auto.
  destruct (Nat.eqb_spec x t); [tauto|]. f_equal. apply IH. tauto.
Qed.

(** Removing a dead waiter does not change the live ones. *)
Lemma live_remove_dead : forall w t s, NoDup (map fst w) -> In (t, s) w -> live (t, s) = false ->
  map fst (filter live (remove_waiter w t)) = map fst (filter live w).
Proof.
  induction w as [|[x y] w IH]; simpl; intros t s N I L; [tauto|].
  inversion N as [|? ? N1 N2]; subst. destruct I as [I|I].
  - inversion I; subst. rewrite Nat.eqb_refl. simpl. rewrite L.
    change (filter (fun p => negb (fst p =? t)) w) with (remove_waiter w t).
    now rewrite remove_waiter_notin.
  - destruct (Nat.eqb_spec x t); simpl.
    + exfalso. subst. apply N1. apply in_map_iff. exists (t, s). auto.
    + change (filter (fun p => negb (fst p =? t)) w) with (remove_waiter w t).
      destruct (live (x, y)); simpl; rewrite (IH t s); auto.
Qed.

Lemma live_set_dead : forall w t s s', NoDup (map fst w) -> In (t, s) w -> live (t, s') = false ->
  map fst (filter live (set_wst w t s')) = filter (fun x => negb (x =? t)) (map fst (filter live w)).
Proof.
  intros w t s s' N I L. clear I N. induction w as [|[x y] w IH]; simpl; auto.
  destruct (Nat.eqb_spec x t).
  - subst. rewrite L. change (map (fun p => if fst p =? t then (t, s') else p) w) with (set_wst w t s').
    rewrite IH. destruct (live (t, y)); simpl; auto. now rewrite Nat.eqb_refl.
  - change (map (fun p => if fst p =? t then (t, s') else p) w) with (set_wst w t s').
    destruct (live (x, y)); simpl; auto. destruct (Nat.eqb_spec x t); [congruence|]. simpl. now rewrite IH.
Qed.

Lemma inv_init : Inv init.
Proof.
  constructor; simpl; auto; try tauto; constructor.
Qed.

Lemma mem_snoc : forall x l y, mem x (l ++ [y]) = mem x l || (x =? y).
Proof. intros. unfold mem. rewrite existsb_app. simpl. now rewrite orb_false_r. Qed.

Lemma filter_ext_in' : forall A (f g : A -> bool) l, (forall x, In x l -> f x = g x) -> filter f l = filter g l.
Proof. intros. apply filter_ext_in. auto. Qed.

Lemma NoDup_app_one : forall (l : list nat) t, NoDup l -> ~ In t l -> NoDup (l ++ [t]).
Proof.
  induction l; simpl; intros t N H; [constructor; auto|].
  inversion N; subst. constructor.
  - rewrite in_app_iff. simpl. intuition.
  - apply IHl; auto.
Qed.

Lemma step_inv : forall s e, Inv s -> Inv (step s e).
Proof.
  intros s e I. destruct e as [t|t|t|t|t|t]; cbn [step].
  - (* Arrive *)
    destruct (mem t (arrivals s)) eqn:M; auto. apply mem_false in M.
    assert (G : mem t (gone s) = false) by (apply mem_false; intros H; apply M, (i_gone s I), H).
    destruct (negb (locked s) && forallb (fun p => is_cancelled (snd p)) (waiters s)) eqn:C.
    + apply andb_true_iff in C. destruct C as [C1 C2]. apply negb_true_iff in C1.
      assert (W : forall x y, In (x, y) (waiters s) -> y = Wc).
      { intros x y H. rewrite forallb_forall in C2. specialize (C2 _ H). simpl in C2. now destruct y. }
      constructor; cbn [locked waiters inside free arrivals starts gone].
      * rewrite app_length. pose proof (i_inside s I). rewrite C1 in H. simpl. lia.
      * discriminate.
      * intros _. apply forallb_forall. intros [x y] H. simpl. now rewrite (W x y H).
      * apply (i_tail s I).
      * apply (i_nodup s I).
      * apply NoDup_app_one; auto. apply (i_nodupA s I).
      * intros x H. apply in_or_app. left. now apply (i_arr s I).
      * intros x H. apply in_app_or in H. apply in_or_app. destruct H as [H|H]; auto.
        left. now apply (i_insarr s I).
      * intros x H. apply in_or_app. left. now apply (i_gone s I).
      * apply (i_gonew s I).
      * rewrite filter_app. simpl. rewrite G. simpl. rewrite (i_order s I), <- !app_assoc.
        f_equal. replace (filter live (waiters s)) with (@nil (nat * wst)); auto.
        symmetry. destruct (filter live (waiters s)) as [|[x y] r] eqn:F; auto.
        assert (In (x, y) (filter live (waiters s))) by (rewrite F; left; auto).
        apply filter_In in H. destruct H as [H1 H2]. rewrite (W x y H1) in H2. discriminate.
    + constructor; cbn [locked waiters inside free arrivals starts gone].
      * apply (i_inside s I).
      * intros L. rewrite L in C. simpl in C. pose proof (i_head s I L) as H.
        destruct (waiters s) as [|[x y] r]; [discriminate|]. simpl. exact H.
      * intros L. rewrite forallb_app. rewrite (i_headlk s I L). reflexivity.
      * destruct (waiters s) as [|p r] eqn:W; auto. simpl. rewrite forallb_app.
        pose proof (i_tail s I). rewrite W in H. simpl in H. rewrite H. reflexivity.
      * rewrite map_app. simpl. apply NoDup_app_one; [apply (i_nodup s I)|].
        intros H. apply M. now apply (i_arr s I).
      * apply NoDup_app_one; auto. apply (i_nodupA s I).
      * intros x H. rewrite map_app in H. apply in_app_or in H. apply in_or_app.
        destruct H as [H|H]; auto. left. now apply (i_arr s I).
      * intros x H. apply in_or_app. left. now apply (i_insarr s I).
      * intros x H. apply in_or_app. left. now apply (i_gone s I).
      * intros x y H. apply in_app_or in H. destruct H as [H|H]; [now apply (i_gonew s I)|].
        simpl in H. destruct H as [H|[]]. inversion H; subst. simpl. split; [|discriminate].
        intros H1. exfalso. apply M. now apply (i_gone s I).
      * rewrite filter_app, filter_app, map_app. simpl. rewrite G. simpl.
        rewrite (i_order s I), <- app_assoc. reflexivity.
  - destruct I; constructor; assumption.
  - (* Resume *)
    destruct (lookup (waiters s) t) as [[]|] eqn:L; auto.
    + (* Ww *)
      apply lookup_In in L.
      assert (Lk : locked s = false).
      { destruct (locked s) eqn:Lk; auto. pose proof (i_headlk s I Lk) as H.
        rewrite forallb_forall in H. specialize (H _ L). discriminate. }
      assert (W : exists r, waiters s = (t, Ww) :: r).
      { pose proof (i_tail s I) as H. destruct (waiters s) as [|p r]; [destruct L|].
        destruct L as [->|L]; [eauto|]. simpl in H. rewrite forallb_forall in H.
        specialize (H _ L). discriminate. }
      destruct W as [r W]. pose proof (i_nodup s I) as N. rewrite W in N. simpl in N.
      inversion N as [|? ? N1 N2]; subst.
      assert (R : remove_waiter (waiters s) t = r).
      { rewrite W. unfold remove_waiter. simpl. rewrite Nat.eqb_refl. simpl.
        now apply remove_waiter_notin. }
      rewrite R. pose proof (i_tail s I) as T. rewrite W in T. simpl in T.
      constructor; cbn [locked waiters inside free arrivals starts gone].
      * rewrite app_length. pose proof (i_inside s I). rewrite Lk in H. simpl. lia.
      * discriminate.
      * intros _. exact T.
      * now apply forallb_tl.
      * exact N2.
      * apply (i_nodupA s I).
      * intros x H. apply (i_arr s I). rewrite W. simpl. auto.
      * intros x H. apply in_app_or in H. destruct H as [H|[<-|[]]].
        -- now apply (i_insarr s I).
        -- apply (i_arr s I). rewrite W. simpl. auto.
      * apply (i_gone s I).
      * intros x y H. apply (i_gonew s I). rewrite W. right. auto.
      * rewrite (i_order s I), W. simpl. now rewrite <- app_assoc.
    + (* Wwc *)
      apply lookup_In in L.
      constructor; cbn [locked waiters inside free arrivals starts gone].
      * apply (i_inside s I).
      * intros Lk. rewrite Lk. apply wake_head.
      * intros Lk. rewrite Lk. apply forallb_remove, (i_headlk s I Lk).
      * assert (T : forallb (fun p => negb (woken (snd p))) (tl (remove_waiter (waiters s) t)) = true).
        { pose proof (i_tail s I) as T. destruct (waiters s) as [|[x y] r]; auto. simpl in *.
          destruct (Nat.eqb_spec x t); simpl.
          - apply forallb_tl. now apply (forallb_remove _ r t).
          - now apply (forallb_remove _ r t). }
        destruct (locked s); auto. now rewrite wake_tl.
      * destruct (locked s); rewrite ?wake_fst; apply remove_waiter_nodup, (i_nodup s I).
      * apply (i_nodupA s I).
      * intros x H. apply (i_arr s I).
        assert (H' : In x (map fst (remove_waiter (waiters s) t))) by (destruct (locked s); rewrite ?wake_fst in H; auto).
        apply in_map_iff in H'. destruct H' as [[a b] [E1 E2]]. simpl in E1; subst.
        apply remove_waiter_In in E2. apply in_map_iff. exists (x, b). tauto.
      * apply (i_insarr s I).
      * apply (i_gone s I).
      * intros x y H.
        assert (H' : exists y', In (x, y') (remove_waiter (waiters s) t) /\ live (x, y) = live (x, y'))
          by (destruct (locked s); [eauto|now apply wake_In]).
        destruct H' as [y' [H1 H2]]. rewrite H2. apply (i_gonew s I). apply remove_waiter_In in H1. tauto.
      * rewrite (i_order s I). f_equal.
        transitivity (map fst (filter live (remove_waiter (waiters s) t))).
        -- symmetry. eapply live_remove_dead; eauto. apply (i_nodup s I).
        -- destruct (locked s); auto. now rewrite wake_live.
    + (* Wc *)
      apply lookup_In in L.
      constructor; cbn [locked waiters inside free arrivals starts gone].
      * apply (i_inside s I).
      * intros Lk. rewrite Lk. apply wake_head.
      * intros Lk. rewrite Lk. apply forallb_remove, (i_headlk s I Lk).
      * assert (T : forallb (fun p => negb (woken (snd p))) (tl (remove_waiter (waiters s) t)) = true).
        { pose proof (i_tail s I) as T. destruct (waiters s) as [|[x y] r]; auto. simpl in *.
          destruct (Nat.eqb_spec x t); simpl.
          - apply forallb_tl. now apply (forallb_remove _ r t).
          - now apply (forallb_remove _ r t). }
        destruct (locked s); auto. now rewrite wake_tl.
      * destruct (locked s); rewrite ?wake_fst; apply remove_waiter_nodup, (i_nodup s I).
      * apply (i_nodupA s I).
      * intros x H. apply (i_arr s I).
        assert (H' : In x (map fst (remove_waiter (waiters s) t))) by (destruct (locked s); rewrite ?wake_fst in H; auto).
        apply in_map_iff in H'. destruct H' as [[a b] [E1 E2]]. simpl in E1; subst.
        apply remove_waiter_In in E2. apply in_map_iff. exists (x, b). tauto.
      * apply (i_insarr s I).
      * apply (i_gone s I).
      * intros x y H.
        assert (H' : exists y', In (x, y') (remove_waiter (waiters s) t) /\ live (x, y) = live (x, y'))
          by (destruct (locked s); [eauto|now apply wake_In]).
        destruct H' as [y' [H1 H2]]. rewrite H2. apply (i_gonew s I). apply remove_waiter_In in H1. tauto.
      * rewrite (i_order s I). f_equal.
        transitivity (map fst (filter live (remove_waiter (waiters s) t))).
        -- symmetry. eapply live_remove_dead; eauto. apply (i_nodup s I).
        -- destruct (locked s); auto. now rewrite wake_live.
  - (* Cancel *)
    assert (Gen : forall st st', In (t, st) (waiters s) -> live (t, st) = true -> live (t, st') = false ->
       woken st' = woken st ->
       Inv (Lock (locked s) (set_wst (waiters s) t st') (inside s) (free s) (arrivals s) (starts s) (gone s ++ [t]))).
    { intros st st' Hin Hl Hl' Hw.
      assert (NG : ~ In t (gone s)) by (rewrite (i_gonew s I _ _ Hin); congruence).
      assert (FB : forall w, NoDup (map fst w) -> (forall y, In (t, y) w -> y = st) ->
                forallb (fun p => negb (woken (snd p))) (set_wst w t st') = forallb (fun p => negb (woken (snd p))) w).
      { induction w as [|[x y] w IHw]; simpl; intros N Hy; auto.
        inversion N; subst. change (map (fun p => if fst p =? t then (t, st') else p) w) with (set_wst w t st').
        rewrite IHw; auto. destruct (Nat.eqb_spec x t); auto. subst. simpl. rewrite Hw.
        rewrite (Hy y) by auto. reflexivity. }
      assert (U : forall y, In (t, y) (waiters s) -> y = st).
      { intros y Hy. eapply in_unique; eauto. apply (i_nodup s I). }
      constructor; cbn [locked waiters inside free arrivals starts gone].
      - apply (i_inside s I).
      - intros L. pose proof (i_head s I L) as H. destruct (waiters s) as [|[x y] r] eqn:W; auto.
        simpl. destruct (Nat.eqb_spec x t); [|exact H]. subst. destruct st'; auto. discriminate.
      - intros L. rewrite FB; auto. apply (i_headlk s I L). apply (i_nodup s I).
      - assert (tl (set_wst (waiters s) t st') = set_wst (tl (waiters s)) t st') by (destruct (waiters s); auto).
        rewrite H. rewrite FB; [apply (i_tail s I)| |].
        + pose proof (i_nodup s I) as N. destruct (waiters s); simpl in *; auto. now inversion N.
        + intros y Hy. apply U. destruct (waiters s); simpl in *; auto.
      - rewrite set_wst_fst. apply (i_nodup s I).
      - apply (i_nodupA s I).
      - rewrite set_wst_fst. apply (i_arr s I).
      - apply (i_insarr s I).
      - intros x H. apply in_app_or in H. destruct H as [H|[<-|[]]]; [now apply (i_gone s I)|].
        apply (i_arr s I). apply in_map_iff. exists (t, st). auto.
      - intros x y H. apply set_wst_In in H. rewrite in_app_iff. simpl. destruct H as [[-> ->]|[H1 H2]].
        + rewrite Hl'. tauto.
        + rewrite (i_gonew s I _ _ H2). intuition congruence.
      - rewrite (live_set_dead _ _ _ _ (i_nodup s I) Hin Hl').
        assert (E1 : filter (fun x => negb (mem x (gone s ++ [t]))) (arrivals s)
                   = filter (fun x => negb (x =? t)) (filter (fun x => negb (mem x (gone s))) (arrivals s))).
        { clear. induction (arrivals s) as [|a l IH]; simpl; auto. rewrite mem_snoc.
          destruct (mem a (gone s)); simpl; auto. destruct (a =? t); simpl; auto. now rewrite IH. }
        rewrite E1, (i_order s I), filter_app. f_equal.
        assert (NS : ~ In t (starts s) \/ In t (starts s)) by (destruct (in_dec Nat.eq_dec t (starts s)); auto).
        destruct NS as [NS|NS].
        + clear - NS. induction (starts s) as [|a l IH]; simpl; auto. destruct (Nat.eqb_spec a t); simpl.
          * exfalso. apply NS. simpl. auto.
          * f_equal. apply IH. simpl in NS. tauto.
        + exfalso. pose proof (NoDup_filter (fun x => negb (mem x (gone s))) (i_nodupA s I)) as N.
          rewrite (i_order s I) in N.
          assert (In t (map fst (filter live (waiters s)))).
          { apply in_map_iff. exists (t, st). split; auto. apply filter_In. auto. }
          clear - N NS H. induction (starts s) as [|a l IH]; [destruct NS|].
          simpl in N. inversion N; subst. destruct NS as [->|NS]; auto.
          apply H2. apply in_or_app. auto. }
    destruct (lookup (waiters s) t) as [[]|] eqn:L; auto.
    + apply lookup_In in L. eapply Gen; eauto.
    + apply lookup_In in L. eapply Gen; eauto.
  - (* Finish *)
    destruct (mem t (inside s)) eqn:M; auto. apply mem_In in M.
    pose proof (i_inside s I) as Hl. destruct (inside s) as [|x [|y r]] eqn:E; [destruct M| |destruct (locked s); discriminate].
    assert (Lk : locked s = true) by (destruct (locked s); auto; discriminate).
    destruct M as [->|[]]. simpl. rewrite Nat.eqb_refl. simpl.
    constructor; cbn [locked waiters inside free arrivals starts gone]; auto.
    + intros _. apply wake_head.
    + discriminate.
    + rewrite wake_tl. apply (i_tail s I).
    + rewrite wake_fst. apply (i_nodup s I).
    + apply (i_nodupA s I).
    + rewrite wake_fst. apply (i_arr s I).
    + intros ? [].
    + apply (i_gone s I).
    + intros x y H. destruct (wake_In _ _ _ H) as [y' [H1 H2]]. rewrite H2. now apply (i_gonew s I).
    + rewrite wake_live. apply (i_order s I).
  - destruct I; constructor; assumption.
Qed.

Lemma run_inv : forall evs s, Inv s -> Inv (run s evs).
Proof. induction evs; simpl; intros; auto. apply IHevs, step_inv, H. Qed.

Lemma reach_inv : forall evs, Inv (run init evs).
Proof. intros. apply run_inv, inv_init. Qed.
