(** * Proofs for C71 *)
From Coq Require Import List Arith Bool Lia Permutation.
From Verif Require Import YieldModel YieldSpec YieldProofs.
Import ListNotations.

Section Proofs.
  Variables M V E St : Type.
  Variable none : V.
  Variable cancelled : E.
  Variable methods : nat -> M -> method M V E St.
  Variable init : nat -> St.
  Notation act := (act M V E St).
  Notation st := (st M V E St).
  Notation tstate := (tstate M V E St).
  Notation task := (task M V E St).
  Notation step := (step M V E St none cancelled methods).
  Notation run := (run M V E St none cancelled methods).
  Notation initial := (initial M V E St init).
  Notation body := (body M V E St methods).
  Notation reach := (reach M V E St none cancelled methods init).
  Notation move := (move M V E St none cancelled methods).
  Notation kids := (kids M V E St).
  Notation cut_off := (cut_off M V E St).
  Notation after := (after M V E St none).
  Notation remark := (remark M V E St).

  (** ** What a move does to the marks *)
  Lemma got_other : forall s s', move s s' -> exists t c ts lg ts' lg' cs,
    nth_error (tasks s) t = Some (mkTask c ts lg) /\ (forall o, ts <> Done o) /\ tasks s' = put M V E St (tasks s) t (mkTask c ts' lg') ++ new M V E St cs /\
    forall i, i <> t -> got (marked s') i = got (marked s) i.
  Proof.
    assert (U : forall mk t is i, i <> t -> got (with_got mk t is) i = got mk i).
    { intros mk t is i N. cbn. now apply upd_ne. }
    intros s s' Mv. destruct Mv; do 7 eexists; (split; [eassumption|split; [|split; [reflexivity|]]]); cbn [marked]; auto;
      try (intros oo X; subst; discriminate).
    intros j N. unfold with_parent. cbn [got]. destruct stopped; auto.
  Qed.

  (** ** Who has been cancelled *)
  Lemma cut_off_got : forall s, reach s -> forall t c ts lg, nth_error (tasks s) t = Some (mkTask c ts lg) -> cut_off ts = true -> got (marked s) t = true.
  Proof.
    induction 1 as [|s c0 R IH|s s' R IH Mv|s mk R IH Fl]; intros t c ts lg Q CO.
    - destruct t; discriminate.
    - cbn [tasks marked] in *. destruct (Nat.lt_ge_cases t (length (tasks s))) as [L|L].
      + rewrite nth_error_app1 in Q by auto. eauto.
      + rewrite nth_error_app2 in Q by auto. destruct (t - length (tasks s)) as [|k]; cbn in Q; [injection Q as <- <- <-; discriminate|destruct k; discriminate].
    - pose proof (got_move _ _ _ _ _ _ _ _ _ Mv) as GM.
      destruct Mv as [t1 c1 l T|a t1 q c1 d l Ho Qu T|t1 a m l T|t1 a m p stopped u f l ts1 kept cs T P Af|t1 c1 i k b l o T O|t1 c1 is k b l os T O|t1 c1 is f b l os T O|t1 c1 l T D|t1 c1 d l T D|t1 c1 ts1 ts' l T D It];
        cbn [tasks marked] in *; destruct (look _ _ _ _ _ _ _ _ _ _ _ T Q) as [[-> W]|[[_ W]|(_ & c2 & _ & W)]]; try (apply GM; eapply IH; eauto; fail);
        injection W as -> -> ->; try discriminate.
      + destruct (after_kids _ _ _ _ _ _ _ _ _ _ Af) as [_ AC]. congruence.
      + cbn. apply upd_eq.
    - destruct Fl; cbn in *; eauto.
  Qed.
  Definition deliverable (ts : tstate) : bool :=
    match ts with Inside Make | Yielded [] _ _ | Delegated [] _ _ | Done _ => false | _ => true end.
  Lemma deliver_enabled : forall s, reach s -> forall t c ts lg, nth_error (tasks s) t = Some (mkTask c ts lg) -> asked (marked s) t = true ->
    got (marked s) t = false -> deliverable ts = true -> exists s', step s (Deliver t) = Some s'.
  Proof.
    intros s R t [a m] ts lg T A G D. pose proof (cut_off_got _ R _ _ _ _ T) as CG. cbn [YieldModel.step]. rewrite A, G, T. cbn [andb negb].
    destruct ts as [|d|[|[u f u' f']]|i k [|]|[|i is] k [|]|[|i is] f [|]|o]; try discriminate; try (eexists; reflexivity);
      try (rewrite CG in G by reflexivity; discriminate).
    unfold segment. cbv zeta. destruct (f' (mem s a)); eexists; reflexivity.
  Qed.

  (** ** Nobody is left if nobody leaves *)
  Definition stays (e : event M) : Prop := match e with LeaveSending _ | Again _ => False | _ => True end.
  Lemma never_left : forall es s s', reach s -> (forall i, left (marked s) i = false) -> Forall stays es -> run s es = Some s' ->
    forall i, left (marked s') i = false.
  Proof.
    induction es as [|e es IH]; intros s s' R L F Q; cbn in Q; [injection Q as <-; exact L|].
    inversion F as [|? ? F1 F2]; subst. destruct (step s e) as [s1|] eqn:S1; [|discriminate].
    eapply (IH s1); eauto; [eapply step_reach; eauto|]. clear IH Q F.
    assert (MV : move s s1 -> forall i, left (marked s1) i = false).
    { intros Mv i. destruct Mv; cbn [marked]; try exact (L i). unfold with_parent. cbn [left]. destruct stopped; exact (L i). }
    destruct e; try (apply MV; eapply step_move; [exact S1|exact Logic.I]); try (destruct F1; fail).
    - cbn in S1. injection S1 as <-. exact L.
    - cbn [YieldModel.step] in S1. destruct (nth_error (tasks s) t); [|discriminate]. destruct (parent (marked s) t); [discriminate|].
      injection S1 as <-. exact L.
    - intros i. cbn [YieldModel.step] in S1. destruct (nth_error (tasks s) t) as [[? [] ?]|]; try discriminate. destruct (parent (marked s) t) as [p|]; [|discriminate].
      destruct (nth_error (tasks s) p) as [[? [| | | |[|? [|]] ? []|[|? [|]] ? []|] ?]|]; try discriminate;
        (match type of S1 with (if ?b then _ else _) = _ => destruct b; [|discriminate] end); injection S1 as <-; exact (L i).
  Qed.

  (** ** What stays as it is *)
  Lemma move_hist : forall s s', reach s -> move s s' -> forall t c o lg, nth_error (tasks s) t = Some (mkTask c (Done o) lg) ->
    nth_error (tasks s') t = Some (mkTask c (Done o) lg) /\ filter (fun r => r_task r =? t) (hist s') = filter (fun r => r_task r =? t) (hist s).
  Proof.
    intros s s' R Mv t c o lg Q. pose proof (got_other _ _ Mv) as (t1 & c1 & ts1 & lg1 & ts' & lg' & cs & T & ND & E' & _).
    assert (N : t <> t1) by (intros ->; rewrite Q in T; injection T as -> <- ->; elim (ND o eq_refl)). split; [rewrite E'; now apply look_ne|].
    clear E' ND T. destruct Mv as [| | |t2 a m p stopped u f l ts2 kept cs2 T P Af| | | | | |]; cbn [hist]; auto.
    rewrite filter_app. cbn [filter r_task]. destruct (Nat.eqb_spec t2 t) as [->|]; [congruence|]. apply app_nil_r.
  Qed.
  Lemma run_hist : forall es s s', reach s -> run s es = Some s' -> forall t c o lg, nth_error (tasks s) t = Some (mkTask c (Done o) lg) ->
    nth_error (tasks s') t = Some (mkTask c (Done o) lg) /\ filter (fun r => r_task r =? t) (hist s') = filter (fun r => r_task r =? t) (hist s).
  Proof.
    induction es as [|e es IH]; intros s s' R Q t c o lg T; cbn in Q; [injection Q as <-; auto|].
    destruct (step s e) as [s1|] eqn:S1; [|discriminate].
    assert (X : nth_error (tasks s1) t = Some (mkTask c (Done o) lg) /\ filter (fun r => r_task r =? t) (hist s1) = filter (fun r => r_task r =? t) (hist s)).
    { destruct e; try (eapply move_hist; [exact R|eapply step_move; [exact S1|exact Logic.I]|exact T]);
        try (apply step_flags in S1; [destruct S1 as (mk & _ & ->); split; [exact T|reflexivity]|exact init|intros []|intros; discriminate]).
      cbn in S1. injection S1 as <-. cbn [tasks hist]. split; auto. rewrite nth_error_app1; auto. eapply bound; eauto. }
    destruct X as [X1 X2]. destruct (IH s1 s' (step_reach _ _ _ _ _ _ _ _ _ _ _ R S1) Q _ _ _ _ X1) as [Y1 Y2]. split; auto. congruence.
  Qed.

  (** ** Methods that let CancelledError through *)
  Section Through.
    Hypothesis LT : forall a m, lets_through cancelled 1 (body (a, m)).
    Notation doomed := (doomed cancelled). Notation lets_through := (lets_through cancelled 1).

    Definition D (g : bool) (ts : tstate) : Prop :=
      match ts with
      | Sent | Queued Make | Inside Make => g = false
      | Queued (Go p) | Inside (Go p) => doomed p \/ (g = false /\ lets_through p)
      | Awaiting _ k b => (forall o, doomed (k o)) \/ (doomed (k (Err cancelled)) /\ (forall o, lets_through (k o)) /\ g = b)
      | Yielded is k b => (forall r, doomed (k r)) \/ (length is <= 1 /\ doomed (k (inr cancelled)) /\ (forall r, lets_through (k r)) /\ g = b)
      | Delegated is _ b => length is <= 1 /\ g = b
      | Done o => g = true -> o = Err cancelled
      end.

    Lemma after_doomed : forall g n x ts kept cs, after n x = (ts, kept, cs) -> doomed_act cancelled x -> D g ts.
    Proof.
      intros g n x ts kept cs Q X. destruct x; cbn in Q; injection Q as <- <- <-; cbn in *; try contradiction; auto.
      intros _. congruence.
    Qed.
    Lemma after_through : forall n x ts kept cs, after n x = (ts, kept, cs) -> lets_through_act cancelled 1 x -> D false ts.
    Proof.
      intros n x ts kept cs Q X. destruct x; cbn in Q; injection Q as <- <- <-; cbn in *; try discriminate; try (intros; discriminate).
      - right. rewrite seq_length. tauto.
      - right. tauto.
      - rewrite seq_length. auto.
    Qed.

    Lemma D_reach : forall s, reach s -> forall t c ts lg, nth_error (tasks s) t = Some (mkTask c ts lg) -> D (got (marked s) t) ts.
    Proof.
      induction 1 as [|s c0 R IH|s s' R IH Mv|s mk R IH Fl].
      - intros [|t] c ts lg Q; discriminate.
      - intros t c ts lg Q. cbn [tasks marked] in *. destruct (Nat.lt_ge_cases t (length (tasks s))) as [L|L].
        + rewrite nth_error_app1 in Q by auto. eauto.
        + pose proof (k_fresh _ _ _ _ _ (K_reach _ _ _ _ _ _ _ _ _ R) t L) as ((_ & G & _) & _).
          rewrite nth_error_app2 in Q by auto. destruct (t - length (tasks s)) as [|k]; cbn in Q; [injection Q as <- <- <-; exact G|destruct k; discriminate].
      - pose proof (K_reach _ _ _ _ _ _ _ _ _ R) as KK. pose proof (got_move _ _ _ _ _ _ _ _ _ Mv) as GM.
        (* a cancelled wait ends with CancelledError *)
        assert (RES : forall t c ts lg os, nth_error (tasks s) t = Some (mkTask c ts lg) -> cut_off ts = true -> length (kids ts) <= 1 ->
          results M V E St cancelled s true (kids ts) = Some os -> os = [Err cancelled]).
        { intros t c ts lg os T CO L O. pose proof (k_some _ _ _ _ _ KK _ _ _ _ T CO) as NE.
          pose proof (fun i => k_single _ _ _ _ _ KK _ _ _ _ i T) as RP. destruct (kids ts) as [|i [|]]; cbn in L; [congruence| |lia].
          cbn [YieldModel.results] in O. destruct (result_of M V E St cancelled s true i) as [o|] eqn:Q1; [|discriminate]. injection O as <-. f_equal.
          unfold result_of in Q1. destruct (left (marked s) i); [congruence|]. destruct (nth_error (tasks s) i) as [[ci tsi li]|] eqn:Ti; [|discriminate].
          destruct tsi; try discriminate. injection Q1 as <-. destruct (got (marked s) i) eqn:Gi; cbn; [|now rewrite (RP i eq_refl)].
          pose proof (IH _ _ _ _ Ti) as X. rewrite Gi in X. apply X. reflexivity. }
        assert (GEN : forall t c ts lg ts' lg' cs, nth_error (tasks s) t = Some (mkTask c ts lg) ->
          tasks s' = put M V E St (tasks s) t (mkTask c ts' lg') ++ new M V E St cs -> (forall i, i <> t -> got (marked s') i = got (marked s) i) ->
          (D (got (marked s) t) ts -> D (got (marked s') t) ts') ->
          forall i c1 ts1 lg1, nth_error (tasks s') i = Some (mkTask c1 ts1 lg1) -> D (got (marked s') i) ts1).
        { intros t c ts lg ts' lg' cs T E' GO P i c1 ts1 lg1 Q. rewrite E' in Q.
          destruct (look _ _ _ _ _ _ _ _ _ _ _ T Q) as [[-> W]|[[N A1]|(L & c2 & _ & W)]].
          - injection W as -> -> ->. apply P. eauto.
          - rewrite GO by auto. eauto.
          - injection W as -> -> ->. cbn. rewrite GO by (apply bound in T; lia). apply (k_fresh _ _ _ _ _ KK i L). }
        assert (U : forall mk t is i, i <> t -> got (with_got mk t is) i = got mk i).
        { intros mk t is i N. cbn. now apply upd_ne. }
        destruct Mv as [t c l T|a t q c d l Ho Qu T|t a m l T|t a m p stopped u f l ts kept cs T P Af|t c i k b l o T O|t c is k b l os T O|t c is f b l os T O|t c l T Du|t c d l T Du|t c ts ts' l T Du It];
          (eapply GEN; [exact T|reflexivity|cbn [marked]; auto|]); try (cbn [marked]; intros X).
        + cbn in X. unfold start. destruct c as [a m]. cbn [fst snd]. specialize (LT a m). unfold YieldModel.body in LT. cbn [fst snd] in LT.
          destruct (methods a m); cbn; auto.
        + destruct d; exact X.
        + cbn in X. right. split; [exact X|apply LT].
        + intros N. unfold with_parent. cbn [got]. destruct stopped; auto.
        + unfold with_parent. cbn [got]. cbn in X. destruct stopped.
          * destruct P as ((u0 & f0 & ->) & _). eapply after_doomed; [exact Af|]. destruct X as [X|[_ X]]; exact (proj2 (X (mem s a))).
          * destruct P as (u' & f' & ->). destruct X as [X|[-> X]]; [eapply after_doomed; [exact Af|]; exact (proj1 (X (mem s a)))|].
            eapply after_through; [exact Af|]. exact (proj1 (X (mem s a))).
        + cbn in X. destruct X as [X|(X1 & X2 & X3)]; [left; apply X|]. destruct b.
          * left. assert (Y : [o] = [Err cancelled]) by (eapply RES; [exact T|reflexivity|cbn; lia|exact O]). injection Y as ->. exact X1.
          * right. split; auto.
        + cbn in X. destruct X as [X|(X0 & X1 & X2 & X3)]; [left; apply X|]. destruct b.
          * left. assert (Y : os = [Err cancelled]) by (eapply RES; [exact T|reflexivity|exact X0|exact O]). subst os. exact X1.
          * right. split; auto.
        + cbn in X. destruct X as (X0 & X3). destruct b; cbn [D]; intros G; [|congruence].
          assert (Y : os = [Err cancelled]) by (eapply RES; [exact T|reflexivity|exact X0|exact O]). subst os. reflexivity.
        + intros _. reflexivity.
        + intros _. reflexivity.
        + replace (got (with_got (marked s) t (kids ts)) t) with true by (cbn; now rewrite upd_eq).
          destruct Du as [_ G0]. rewrite G0 in X.
          destruct ts as [|d|d|i k [|]|[|i is] k [|]|[|i is] f [|]|o]; cbn in It; try discriminate; injection It as <-; cbn [D] in *.
          * destruct X as [X|(X1 & X2 & X3)]; auto.
          * destruct X as [X|(X0 & X1 & X2 & X3)]; auto.
          * tauto.
      - intros t c ts lg Q. specialize (IH t c ts lg Q). destruct Fl; exact IH.
    Qed.
  End Through.

  (** ** Methods without yield wait for the lock only before they start *)
  Definition quiet_place (w : place M V E St) : Prop :=
    match w with Before p => never_yields p | AtYield _ _ => False | AtAwait _ k => forall o, never_yields (k o) | _ => True end.
  Lemma follows_quiet : forall l p lg w, follows none cancelled l p lg w -> never_yields p -> quiet_place w.
  Proof.
    intros l p lg w F L.
    assert (PO : forall x, never_yields_act x -> quiet_place (place_of none x)) by (intros x X; destruct x; cbn in *; auto).
    induction F as [|lg u next u' next' s F IH|lg u next u' next' s F IH|lg cs k is b r F IH A|lg c k i b v F IH A|lg c k i b e F IH A|lg cs f is b vs F IH A|lg cs f is b e F IH A]; auto;
      try exact Logic.I.
    - apply PO. exact (proj1 (IH s)).
    - apply PO. exact (proj2 (IH s)).
    - destruct IH.
    - apply IH.
    - apply IH.
  Qed.
  Lemma queued_quiet : forall s, reach s -> forall t c ts lg, nth_error (tasks s) t = Some (mkTask c ts lg) -> never_yields (body c) ->
    match ts with
    | Queued _ => lg = []
    | Done o => follows none cancelled (tasks s) (body c) lg (Finished o) \/ (lg = [] /\ o = Err cancelled)
    | _ => True
    end.
  Proof.
    induction 1 as [|s c0 R IH|s s' R IH Mv|s mk R IH Fl].
    - intros [|t] c ts lg Q; discriminate.
    - assert (G : grows M V E St (tasks s) (tasks s ++ new M V E St [c0])).
      { intros i c ts lg Q. exists ts, lg. split; auto. rewrite nth_error_app1; auto. eapply bound; eauto. }
      cbn [tasks]. intros t c ts lg Q NY. destruct (Nat.lt_ge_cases t (length (tasks s))) as [L|L].
      + rewrite nth_error_app1 in Q by auto. specialize (IH _ _ _ _ Q NY). destruct ts; auto.
        destruct IH as [X|X]; auto. left. eapply follows_grows; eauto.
      + rewrite nth_error_app2 in Q by auto. destruct (t - length (tasks s)) as [|k]; cbn in Q; [injection Q as <- <- <-; exact Logic.I|destruct k; discriminate].
    - pose proof (grows_move _ _ _ _ _ _ _ _ _ Mv) as G. pose proof (placed_reach _ _ _ _ _ _ _ _ _ R) as PL.
      pose proof (placed_reach _ _ _ _ _ _ _ _ _ (r_move _ _ _ _ _ _ _ _ _ _ R Mv)) as PL'.
      intros t c ts lg Q NY.
      assert (OLD : nth_error (tasks s) t = Some (mkTask c ts lg) -> match ts with Queued _ => lg = [] |
        Done o => follows none cancelled (tasks s') (body c) lg (Finished o) \/ (lg = [] /\ o = Err cancelled) | _ => True end).
      { intros T. specialize (IH _ _ _ _ T NY). destruct ts; auto. destruct IH as [X|X]; auto. left. eapply follows_grows; eauto. }
      pose proof Q as Q0.
      destruct Mv as [t1 c1 l T|a t1 q c1 d l Ho Qu T|t1 a m l T|t1 a m p stopped u f l ts1 kept cs T P Af|t1 c1 i k b l o T O|t1 c1 is k b l os T O|t1 c1 is f b l os T O|t1 c1 l T D|t1 c1 d l T D|t1 c1 ts1 ts' l T D It];
        cbn [tasks] in Q; destruct (look _ _ _ _ _ _ _ _ _ _ _ T Q) as [[-> W]|[[_ W]|(_ & c2 & _ & W)]]; try exact (OLD W);
        injection W as -> -> ->; try exact Logic.I; clear OLD.
      + exact (PL _ _ _ _ T).
      + exact (PL _ _ _ _ T).
      + pose proof (after_placed M V E St none cancelled methods (tasks s) t1 (mkTask (a, m) ts1 (l ++ [if stopped then Stopped (mem s a) else Ran (mem s a)]))
          false (a, m) _ _ _ _ _ (l ++ [if stopped then Stopped (mem s a) else Ran (mem s a)]) Af eq_refl) as AP.
        assert (F : follows none cancelled (put M V E St (tasks s) t1 (mkTask (a, m) ts1 (l ++ [if stopped then Stopped (mem s a) else Ran (mem s a)])) ++ new M V E St cs)
          (body (a, m)) (l ++ [if stopped then Stopped (mem s a) else Ran (mem s a)]) (place_of none (f (mem s a)))).
        { pose proof (PL _ _ _ _ T) as X. cbn in X. eapply follows_grows in X; [|exact G]. destruct stopped.
          - destruct P as ((u0 & f0 & ->) & _). eapply f_stopped. exact X.
          - destruct P as (u' & f' & ->). eapply f_ran. exact X. }
        specialize (AP F). destruct (f (mem s a)); cbn in Af; injection Af as <- <- <-; try exact Logic.I; left; destruct AP as [X|[X _]]; [exact X|discriminate|exact X|discriminate|exact X|discriminate].
      + pose proof (PL _ _ _ _ T) as X. cbn in X. destruct X as (cs & X & _). apply follows_quiet in X; [destruct X|exact NY].
      + left. pose proof (PL' _ _ _ _ Q0) as X. destruct X as [X|(_ & _ & p & X)]; auto. exfalso.
        assert (Y : forall l0 w, follows none cancelled l0 (body c1) (l ++ [Got is (conclude V E cancelled b os) b]) w -> forall p, w = Before p -> quiet_place w -> False).
        { clear - PL T NY. intros l0 w F p -> Z. pose proof (PL _ _ _ _ T) as X. cbn in X. destruct X as (cs & X & _).
          inversion F as [Q1|? ? ? ? ? ? ? Q1|? ? ? ? ? ? ? Q1|? cs1 k1 is1 b1 r1 F1 W1 Q1|? ? ? ? ? ? ? ? Q1|? ? ? ? ? ? ? ? Q1|? ? ? ? ? ? ? ? Q1|? ? ? ? ? ? ? ? Q1];
            try (destruct l; discriminate); try (apply app_inj_tail in Q1; destruct Q1; discriminate).
          apply follows_quiet in F1; auto. }
        eapply Y; [exact X|reflexivity|]. eapply follows_quiet; eauto.
      + right. split; auto. exact (PL _ _ _ _ T).
      + right. split; auto. exact (IH _ _ _ _ T NY).
      + destruct ts1 as [|d|d|i k [|]|[|i is] k [|]|[|i is] f [|]|o]; cbn in It; try discriminate; injection It as <-; exact Logic.I.
    - intros t c ts lg Q NY. exact (IH t c ts lg Q NY).
  Qed.
End Proofs.
