(** * Proofs for C70 and C71 *)
From Coq Require Import List Arith Bool Lia Permutation.
From Verif Require Import YieldModel YieldSpec.
Import ListNotations.

Section Proofs.
  Variables M V E St : Type.
  Variable none : V.
  Variable cancelled : E.
  Variable methods : nat -> M -> method M V E St.
  Variable init : nat -> St.
  Notation prog := (prog M V E St).
  Notation act := (act M V E St).
  Notation call := (call M).
  Notation outcome := (outcome V E).
  Notation task := (task M V E St).
  Notation tstate := (tstate M V E St).
  Notation st := (st M V E St).
  Notation step := (step M V E St none cancelled methods).
  Notation run := (run M V E St none cancelled methods).
  Notation initial := (initial M V E St init).
  Notation body := (body M V E St methods).
  Notation start := (start M V E St methods).
  Notation put := (put M V E St).
  Notation new := (new M V E St).
  Notation results := (results M V E St cancelled).
  Notation result_of := (result_of M V E St cancelled).
  Notation conclude := (conclude V E cancelled).
  Notation marks := marks.
  Notation gather := (gather V E).

  (** ** Lists of tasks *)
  Lemma put_length : forall l i x, length (put l i x) = length l.
  Proof. induction l as [|y l IH]; intros [|i] x; cbn; auto. Qed.
  Lemma put_eq : forall l i x y, nth_error l i = Some y -> nth_error (put l i x) i = Some x.
  Proof. induction l as [|z l IH]; intros [|i] x y Q; cbn in *; try discriminate; auto. eauto. Qed.
  Lemma put_ne : forall l i j x, i <> j -> nth_error (put l i x) j = nth_error l j.
  Proof. induction l as [|z l IH]; intros [|i] [|j] x N; cbn; auto; try congruence. Qed.
  Lemma bound : forall (l : list task) i x, nth_error l i = Some x -> i < length l.
  Proof. intros. apply nth_error_Some. congruence. Qed.
  (** Looking up in the list after a move *)
  Lemma look : forall l i x y cs j z, nth_error l i = Some y ->
    nth_error (put l i x ++ new cs) j = Some z ->
    (j = i /\ z = x) \/ (j <> i /\ nth_error l j = Some z) \/ (length l <= j /\ exists c, In c cs /\ z = mkTask c Sent []).
  Proof.
    intros l i x y cs j z Q R. destruct (Nat.lt_ge_cases j (length l)) as [L|L].
    - rewrite nth_error_app1 in R by (rewrite put_length; auto). destruct (Nat.eq_dec j i) as [->|N].
      + rewrite (put_eq _ _ _ _ Q) in R. injection R as <-. auto.
      + rewrite put_ne in R by auto. auto.
    - rewrite nth_error_app2 in R by (rewrite put_length; auto). right. right. split; auto.
      apply nth_error_In in R. unfold YieldModel.new in R. apply in_map_iff in R. destruct R as (c & <- & I). eauto.
  Qed.
  Lemma look_eq : forall l i x y cs, nth_error l i = Some y -> nth_error (put l i x ++ new cs) i = Some x.
  Proof.
    intros l i x y cs Q. rewrite nth_error_app1 by (rewrite put_length; eapply bound; eauto). eapply put_eq; eauto.
  Qed.
  Lemma look_ne : forall l i x cs j z, nth_error l j = Some z -> j <> i -> nth_error (put l i x ++ new cs) j = Some z.
  Proof.
    intros l i x cs j z Q N. rewrite nth_error_app1 by (rewrite put_length; eapply bound; eauto). rewrite put_ne; auto.
  Qed.
  Lemma look_new : forall l i x cs j c, nth_error cs j = Some c -> nth_error (put l i x ++ new cs) (length l + j) = Some (mkTask c Sent []).
  Proof.
    intros l i x cs j c Q. rewrite nth_error_app2 by (rewrite put_length; lia). rewrite put_length.
    replace (length l + j - length l) with j by lia. unfold YieldModel.new. now rewrite nth_error_map, Q.
  Qed.

  (** ** Moves *)
  Definition after (n : nat) (x : act) : tstate * bool * list call :=
    match x with
    | Return v => (Done (Ok v), false, [])
    | Stop => (Done (Ok none), false, [])
    | Raise e => (Done (Err e), false, [])
    | Yield cs k => (Yielded (seq n (length cs)) k false, false, cs)
    | Await c k => (Awaiting n k false, true, [c])
    | Delegate cs g => (Delegated (seq n (length cs)) g false, false, cs)
    end.
  Definition final (f : list V -> V) (r : list V + E) : outcome := match r with inl vs => Ok (f vs) | inr e => Err e end.
  Definition kids (ts : tstate) : list nat :=
    match ts with Awaiting i _ _ => [i] | Yielded is _ _ | Delegated is _ _ => is | _ => [] end.
  Definition cut_off (ts : tstate) : bool :=
    match ts with Awaiting _ _ b | Yielded _ _ b | Delegated _ _ b => b | _ => false end.
  Definition interrupt (ts : tstate) : option tstate :=
    match ts with
    | Awaiting i k false => Some (Awaiting i k true)
    | Yielded (i :: is) k false => Some (Yielded (i :: is) k true)
    | Delegated (i :: is) f false => Some (Delegated (i :: is) f true)
    | _ => None
    end.
  Definition due (s : st) (t : nat) : Prop := asked (marked s) t = true /\ got (marked s) t = false.
  (** What a segment does: the normal case, or if it is cancelled *)
  Definition part (s : st) (t : nat) (p : prog) (stopped : bool) (u : St -> St) (f : St -> act) : Prop :=
    if stopped then (exists u0 f0, p = Seg u0 f0 u f) /\ due s t else exists u' f', p = Seg u f u' f'.

  Inductive move (s : st) : st -> Prop :=
  | m_arrive : forall t c l, nth_error (tasks s) t = Some (mkTask c Sent l) ->
      move s (mkSt (put (tasks s) t (mkTask c (Queued (start c)) l) ++ new []) (holder s)
                       (upd (queue s) (fst c) (queue s (fst c) ++ [t])) (mem s) (hist s) (marked s))
  | m_grant : forall a t q c d l, holder s a = None -> queue s a = t :: q -> nth_error (tasks s) t = Some (mkTask c (Queued d) l) ->
      move s (mkSt (put (tasks s) t (mkTask c (Inside d) l) ++ new []) (upd (holder s) a (Some t)) (upd (queue s) a q) (mem s) (hist s) (marked s))
  | m_make : forall t a m l, nth_error (tasks s) t = Some (mkTask (a, m) (Inside Make) l) ->
      move s (mkSt (put (tasks s) t (mkTask (a, m) (Queued (Go (body (a, m)))) l) ++ new []) (upd (holder s) a None)
                       (upd (queue s) a (queue s a ++ [t])) (mem s) (hist s) (marked s))
  | m_run : forall t a m p stopped u f l ts kept cs, nth_error (tasks s) t = Some (mkTask (a, m) (Inside (Go p)) l) ->
      part s t p stopped u f -> after (length (tasks s)) (f (mem s a)) = (ts, kept, cs) ->
      move s (mkSt (put (tasks s) t (mkTask (a, m) ts (l ++ [if stopped then Stopped (mem s a) else Ran (mem s a)])) ++ new cs)
                         (if kept then holder s else upd (holder s) a None) (queue s) (upd (mem s) a (u (mem s a)))
                         (hist s ++ [mkRan t a (mem s a) (u (mem s a)) kept])
                         (with_parent (if stopped then with_got (marked s) t [] else marked s) t (seq (length (tasks s)) (length cs))))
  | m_await : forall t c i k b l o, nth_error (tasks s) t = Some (mkTask c (Awaiting i k b) l) -> results s b [i] = Some [o] ->
      move s (mkSt (put (tasks s) t (mkTask c (Inside (Go (k o))) (l ++ [GotOne i o b])) ++ new []) (holder s) (queue s) (mem s) (hist s) (marked s))
  | m_yield : forall t c is k b l os, nth_error (tasks s) t = Some (mkTask c (Yielded is k b) l) -> results s b is = Some os ->
      move s (mkSt (put (tasks s) t (mkTask c (Queued (Go (k (conclude b os)))) (l ++ [Got is (conclude b os) b])) ++ new []) (holder s)
                           (upd (queue s) (fst c) (queue s (fst c) ++ [t])) (mem s) (hist s) (marked s))
  | m_delegate : forall t c is f b l os, nth_error (tasks s) t = Some (mkTask c (Delegated is f b) l) -> results s b is = Some os ->
      move s (mkSt (put (tasks s) t (mkTask c (Done (final f (conclude b os))) (l ++ [Got is (conclude b os) b])) ++ new [])
                           (holder s) (queue s) (mem s) (hist s) (marked s))
  | m_drop : forall t c l, nth_error (tasks s) t = Some (mkTask c Sent l) -> due s t ->
      move s (mkSt (put (tasks s) t (mkTask c (Done (Err cancelled)) l) ++ new []) (holder s) (queue s) (mem s) (hist s) (with_got (marked s) t []))
  | m_leave : forall t c d l, nth_error (tasks s) t = Some (mkTask c (Queued d) l) -> due s t ->
      move s (mkSt (put (tasks s) t (mkTask c (Done (Err cancelled)) l) ++ new []) (holder s)
                         (upd (queue s) (fst c) (remove Nat.eq_dec t (queue s (fst c)))) (mem s) (hist s) (with_got (marked s) t []))
  | m_interrupt : forall t c ts ts' l, nth_error (tasks s) t = Some (mkTask c ts l) -> due s t -> interrupt ts = Some ts' ->
      move s (mkSt (put (tasks s) t (mkTask c ts' l) ++ new []) (holder s) (queue s) (mem s) (hist s) (with_got (marked s) t (kids ts))).

  (** Events that only leave a mark *)
  Inductive flags (s : st) : marks -> Prop :=
  | fl_cancel : forall t x, nth_error (tasks s) t = Some x -> parent (marked s) t = None ->
      flags s (mkMarks (upd (asked (marked s)) t true) (got (marked s)) (left (marked s)) (replied (marked s)) (parent (marked s)))
  | fl_leave : forall t c l, nth_error (tasks s) t = Some (mkTask c Sent l) -> asked (marked s) t = true -> parent (marked s) t <> None ->
      flags s (mkMarks (upd (asked (marked s)) t false) (got (marked s)) (upd (left (marked s)) t true) (replied (marked s)) (parent (marked s)))
  | fl_again : forall t c ts l is, nth_error (tasks s) t = Some (mkTask c ts l) -> cut_off ts = true -> incl is (kids ts) ->
      flags s (mkMarks (asked (marked s)) (got (marked s)) (set_all (left (marked s)) is true) (replied (marked s)) (parent (marked s)))
  | fl_replied : forall t p c ts l, parent (marked s) t = Some p -> nth_error (tasks s) p = Some (mkTask c ts l) -> In t (kids ts) -> 2 <= length (kids ts) ->
      flags s (mkMarks (asked (marked s)) (got (marked s)) (left (marked s)) (upd (replied (marked s)) t true) (parent (marked s))).

  Definition internal (e : event M) : Prop := match e with Call _ | Cancel _ | LeaveSending _ | Replied _ | Again _ => False | _ => True end.

  Lemma nil_new : forall (l : list task), l = l ++ new [].
  Proof. intros. symmetry. apply app_nil_r. Qed.

  Lemma step_move : forall s e s', step s e = Some s' -> internal e -> move s s'.
  Proof.
    assert (SEG : forall s t a m l p stopped u f s', nth_error (tasks s) t = Some (mkTask (a, m) (Inside (Go p)) l) ->
      part s t p stopped u f -> segment M V E St none s t a m l u f stopped = Some s' -> move s s').
    { intros s t a m l p stopped u f s' T P Q. unfold YieldModel.segment in Q. cbv zeta in Q.
      destruct (after (length (tasks s)) (f (mem s a))) as [[ts kept] cs] eqn:Af. pose proof (m_run s t a m p stopped u f l ts kept cs T P Af) as Mv.
      destruct (f (mem s a)); cbn [after] in Af; injection Af as <- <- <-; injection Q as <-; exact Mv. }
    intros s e s' Q I. destruct e as [c|t|a|t|t|t|t|t|t|t]; unfold YieldModel.step in Q; cbv zeta in Q; try (destruct I; fail).
    - destruct (nth_error (tasks s) t) as [[c ts l]|] eqn:T; [|discriminate]. destruct ts; try discriminate.
      injection Q as <-. rewrite (nil_new (put _ _ _)). now apply m_arrive.
    - destruct (holder s a) eqn:H; [discriminate|]. destruct (queue s a) as [|t q] eqn:Qu; [discriminate|].
      destruct (nth_error (tasks s) t) as [[c ts l]|] eqn:T; [|discriminate]. destruct ts; try discriminate.
      injection Q as <-. rewrite (nil_new (put _ _ _)). now apply m_grant.
    - destruct (nth_error (tasks s) t) as [[[a m] ts l]|] eqn:T; [|discriminate]. destruct ts as [|d|[|[u f u' f']]|i k b|is k b|is f b|o]; try discriminate.
      + injection Q as <-. rewrite (nil_new (put _ _ _)). now apply m_make.
      + eapply SEG; [exact T| |exact Q]. cbn. eauto.
    - destruct (nth_error (tasks s) t) as [[c ts l]|] eqn:T; [|discriminate]. destruct ts as [|d|d|i k b|is k b|is f b|o]; try discriminate.
      + destruct (results s b [i]) as [[|o [|]]|] eqn:O; try discriminate. injection Q as <-. rewrite (nil_new (put _ _ _)).
        now apply m_await.
      + destruct (results s b is) as [os|] eqn:O; [|discriminate]. injection Q as <-. rewrite (nil_new (put _ _ _)). now apply m_yield.
      + destruct (results s b is) as [os|] eqn:O; [|discriminate]. injection Q as <-. rewrite (nil_new (put _ _ _)).
        apply (m_delegate s t c is f b l os); auto.
    - destruct (asked (marked s) t && negb (got (marked s) t)) eqn:D; [|discriminate].
      assert (DU : due s t) by (apply andb_prop in D; destruct D as [D1 D2]; apply negb_true_iff in D2; split; auto).
      destruct (nth_error (tasks s) t) as [[[a m] ts l]|] eqn:T; [|discriminate].
      destruct ts as [|d|[|[u f u' f']]|i k [|]|[|i is] k [|]|[|i is] f [|]|o]; try discriminate.
      + injection Q as <-. rewrite (nil_new (put _ _ _)). now apply m_drop.
      + injection Q as <-. rewrite (nil_new (put _ _ _)). eapply m_leave; eauto.
      + eapply SEG; [exact T| |exact Q]. split; eauto.
      + injection Q as <-. rewrite (nil_new (put _ _ _)). exact (m_interrupt s t (a, m) _ _ l T DU eq_refl).
      + injection Q as <-. rewrite (nil_new (put _ _ _)). exact (m_interrupt s t (a, m) _ _ l T DU eq_refl).
      + injection Q as <-. rewrite (nil_new (put _ _ _)). exact (m_interrupt s t (a, m) _ _ l T DU eq_refl).
  Qed.

  Definition remark (s : st) (mk : marks) : st := mkSt (tasks s) (holder s) (queue s) (mem s) (hist s) mk.
  Lemma step_flags : forall s e s', step s e = Some s' -> ~ internal e -> (forall c, e <> Call c) -> exists mk, flags s mk /\ s' = remark s mk.
  Proof.
    intros s e s' Q NI NC. destruct e as [c|t|a|t|t|t|t|t|t|t]; try (elim (NI I)); [elim (NC c eq_refl)|..]; cbn [YieldModel.step] in Q.
    - destruct (nth_error (tasks s) t) as [x|] eqn:T; [|discriminate]. destruct (parent (marked s) t) eqn:P; [discriminate|].
      injection Q as <-. eexists. split; [|reflexivity]. eapply fl_cancel; eauto.
    - destruct (nth_error (tasks s) t) as [[c ts l]|] eqn:T; [|discriminate]. destruct ts; try discriminate.
      destruct (parent (marked s) t) eqn:P; [|discriminate]. destruct (asked (marked s) t) eqn:A; [|discriminate].
      injection Q as <-. eexists. split; [|reflexivity]. eapply fl_leave; eauto. congruence.
    - destruct (nth_error (tasks s) t) as [[c ts l]|] eqn:T; [|discriminate]. destruct ts; try discriminate.
      destruct (parent (marked s) t) as [p|] eqn:P; [|discriminate]. destruct (nth_error (tasks s) p) as [[cp tsp lp]|] eqn:Tp; [|discriminate].
      destruct tsp as [|d|d|i k [|]|[|i [|j is]] k [|]|[|i [|j is]] f [|]|o1]; try discriminate;
        (match type of Q with (if ?b then _ else _) = _ => destruct b eqn:X; [|discriminate] end); injection Q as <-; (eexists; split; [|reflexivity]);
        (eapply fl_replied; [exact P|exact Tp| |cbn; lia]); apply existsb_exists in X; destruct X as (x & X1 & X2); apply Nat.eqb_eq in X2; subst x; exact X1.
    - destruct (nth_error (tasks s) t) as [[c ts l]|] eqn:T; [|discriminate].
      destruct ts as [|d|d|i k [|]|is k [|]|is f [|]|o]; try discriminate; injection Q as <-; (eexists; split; [|reflexivity]);
        (eapply fl_again; [exact T|reflexivity|]); cbn [kids]; intros j Ij.
      + change (In j (filter (fun i0 => negb (ended M V E St (tasks s) i0)) [i])) in Ij. apply filter_In in Ij. tauto.
      + apply filter_In in Ij. tauto.
      + apply filter_In in Ij. tauto.
  Qed.

  Inductive reach : st -> Prop :=
  | r_init : reach initial
  | r_call : forall s c, reach s -> reach (mkSt (tasks s ++ new [c]) (holder s) (queue s) (mem s) (hist s) (marked s))
  | r_move : forall s s', reach s -> move s s' -> reach s'
  | r_flags : forall s mk, reach s -> flags s mk -> reach (remark s mk).

  Lemma step_reach : forall s e s', reach s -> step s e = Some s' -> reach s'.
  Proof.
    intros s e s' R S1.
    destruct e; try (eapply r_move; [exact R|eapply step_move; [exact S1|exact I]]);
      try (destruct (step_flags _ _ _ S1) as (mk & F & ->); [intros []|intros; discriminate|now apply r_flags]).
    cbn in S1. injection S1 as <-. now apply r_call.
  Qed.
  Lemma run_reach : forall es s s', reach s -> run s es = Some s' -> reach s'.
  Proof.
    induction es as [|e es IH]; intros s s' R Q; cbn in Q; [congruence|]. destruct (step s e) as [s1|] eqn:S1; [|discriminate].
    apply (IH s1 s'); auto. eapply step_reach; eauto.
  Qed.

  (** ** Locks *)
  Definition has_lock (ts : tstate) : bool := match ts with Inside _ | Awaiting _ _ _ => true | _ => false end.
  Definition queued (ts : tstate) : bool := match ts with Queued _ => true | _ => false end.

  Record J (s : st) : Prop := {
    j_hold : forall a t, holder s a = Some t <-> exists m ts l, nth_error (tasks s) t = Some (mkTask (a, m) ts l) /\ has_lock ts = true;
    j_queue : forall a t, In t (queue s a) <-> exists m ts l, nth_error (tasks s) t = Some (mkTask (a, m) ts l) /\ queued ts = true;
    j_nodup : forall a, NoDup (queue s a) }.

  Lemma after_lock : forall n x ts kept cs, after n x = (ts, kept, cs) -> has_lock ts = kept /\ queued ts = false.
  Proof. intros n x ts kept cs Q. destruct x; cbn in Q; injection Q as <- <- <-; auto. Qed.

  Lemma upd_eq : forall {X} (f : nat -> X) a x, upd f a x a = x.
  Proof. intros. unfold upd. now rewrite Nat.eqb_refl. Qed.
  Lemma upd_ne : forall {X} (f : nat -> X) a x b, b <> a -> upd f a x b = f b.
  Proof. intros. unfold upd. destruct (Nat.eqb_spec b a); congruence. Qed.

  (** The effect of a move on who has or waits for locks *)
  Lemma J_change : forall s t c ts l ts' l' cs (H : nat -> option nat) (Qu : nat -> list nat) me hi mk, J s ->
    nth_error (tasks s) t = Some (mkTask c ts l) ->
    (forall a, a <> fst c -> H a = holder s a /\ Qu a = queue s a) ->
    (forall i, i <> t -> (H (fst c) = Some i <-> holder s (fst c) = Some i)) ->
    (H (fst c) = Some t <-> has_lock ts' = true) ->
    (forall i, i <> t -> (In i (Qu (fst c)) <-> In i (queue s (fst c)))) ->
    (In t (Qu (fst c)) <-> queued ts' = true) ->
    NoDup (Qu (fst c)) ->
    J (mkSt (put (tasks s) t (mkTask c ts' l') ++ new cs) H Qu me hi mk).
  Proof.
    intros s t [a m] ts l ts' l' cs H Qu me hi mk [J1 J2 J3] T OT H1 H2 Q1 Q2 ND. cbn [fst] in *. constructor; cbn [tasks holder queue].
    - intros b i. destruct (Nat.eq_dec b a) as [->|Nb].
      + destruct (Nat.eq_dec i t) as [->|Ni].
        * rewrite H2. split.
          -- intros L. exists m, ts', l'. split; auto. eapply look_eq; eauto.
          -- intros (m0 & ts0 & l0 & A & B). rewrite (look_eq _ _ _ _ _ T) in A. injection A as <- <- <-. exact B.
        * rewrite H1 by auto. rewrite J1. split.
          -- intros (m0 & ts0 & l0 & A & B). exists m0, ts0, l0. split; auto. apply look_ne; auto.
          -- intros (m0 & ts0 & l0 & A & B). destruct (look _ _ _ _ _ _ _ T A) as [[? _]|[[_ A1]|(_ & c & _ & ?)]]; [congruence|eauto|].
             injection H0 as _ -> _. discriminate.
      + destruct (OT b Nb) as [-> _]. rewrite J1. split.
        * intros (m0 & ts0 & l0 & A & B). exists m0, ts0, l0. split; auto. apply look_ne; auto. intros ->. congruence.
        * intros (m0 & ts0 & l0 & A & B). destruct (look _ _ _ _ _ _ _ T A) as [[_ ?]|[[_ A1]|(_ & c & _ & ?)]]; [congruence|eauto|].
          injection H0 as _ -> _. discriminate.
    - intros b i. destruct (Nat.eq_dec b a) as [->|Nb].
      + destruct (Nat.eq_dec i t) as [->|Ni].
        * rewrite Q2. split.
          -- intros L. exists m, ts', l'. split; auto. eapply look_eq; eauto.
          -- intros (m0 & ts0 & l0 & A & B). rewrite (look_eq _ _ _ _ _ T) in A. injection A as <- <- <-. exact B.
        * rewrite Q1 by auto. rewrite J2. split.
          -- intros (m0 & ts0 & l0 & A & B). exists m0, ts0, l0. split; auto. apply look_ne; auto.
          -- intros (m0 & ts0 & l0 & A & B). destruct (look _ _ _ _ _ _ _ T A) as [[? _]|[[_ A1]|(_ & c & _ & ?)]]; [congruence|eauto|].
             injection H0 as _ -> _. discriminate.
      + destruct (OT b Nb) as [_ ->]. rewrite J2. split.
        * intros (m0 & ts0 & l0 & A & B). exists m0, ts0, l0. split; auto. apply look_ne; auto. intros ->. congruence.
        * intros (m0 & ts0 & l0 & A & B). destruct (look _ _ _ _ _ _ _ T A) as [[_ ?]|[[_ A1]|(_ & c & _ & ?)]]; [congruence|eauto|].
          injection H0 as _ -> _. discriminate.
    - intros b. destruct (Nat.eq_dec b a) as [->|Nb]; auto. destruct (OT b Nb) as [_ ->]. auto.
  Qed.

  Lemma NoDup_snoc : forall (l : list nat) x, NoDup l -> ~ In x l -> NoDup (l ++ [x]).
  Proof.
    intros l x N I. apply NoDup_Add with (a := x) (l := l); auto. pose proof (Add_app x l []) as A. now rewrite app_nil_r in A.
  Qed.

  Lemma NoDup_remove_all : forall x (l : list nat), NoDup l -> NoDup (remove Nat.eq_dec x l).
  Proof.
    intros x l N. induction N as [|y l Ny N IH]; cbn; [constructor|]. destruct (Nat.eq_dec x y); auto. constructor; auto.
    intros I. apply in_remove in I. tauto.
  Qed.

  Lemma J_reach : forall s, reach s -> J s.
  Proof.
    induction 1 as [|s c R IH|s s' R IH Mv|s mk R IH Fl].
    - constructor; cbn.
      + intros a t. split; [discriminate|]. intros (? & ? & ? & Q & _). destruct t; discriminate.
      + intros a t. split; [intros []|]. intros (? & ? & ? & Q & _). destruct t; discriminate.
      + constructor.
    - destruct IH as [J1 J2 J3]. constructor; cbn [tasks holder queue]; auto.
      + intros a t. rewrite J1. split; intros (m & ts & l & A & B); exists m, ts, l; split; auto.
        * rewrite nth_error_app1; auto. eapply bound; eauto.
        * destruct (Nat.lt_ge_cases t (length (tasks s))); [rewrite nth_error_app1 in A; auto|]. rewrite nth_error_app2 in A by auto.
          destruct (t - length (tasks s)) as [|k]; cbn in A; [injection A as <- <- <-; discriminate|destruct k; discriminate].
      + intros a t. rewrite J2. split; intros (m & ts & l & A & B); exists m, ts, l; split; auto.
        * rewrite nth_error_app1; auto. eapply bound; eauto.
        * destruct (Nat.lt_ge_cases t (length (tasks s))); [rewrite nth_error_app1 in A; auto|]. rewrite nth_error_app2 in A by auto.
          destruct (t - length (tasks s)) as [|k]; cbn in A; [injection A as <- <- <-; discriminate|destruct k; discriminate].
    - assert (NH : forall t c ts l, nth_error (tasks s) t = Some (mkTask c ts l) -> has_lock ts = false -> holder s (fst c) <> Some t).
      { intros t [a m] ts l T L Q. apply (j_hold _ IH) in Q. destruct Q as (m0 & ts0 & l0 & A & B). rewrite A in T. injection T as -> -> ->. congruence. }
      assert (NQ : forall t c ts l, nth_error (tasks s) t = Some (mkTask c ts l) -> queued ts = false -> ~ In t (queue s (fst c))).
      { intros t [a m] ts l T L Q. apply (j_queue _ IH) in Q. destruct Q as (m0 & ts0 & l0 & A & B). rewrite A in T. injection T as -> -> ->. congruence. }
      assert (YH : forall t c ts l, nth_error (tasks s) t = Some (mkTask c ts l) -> has_lock ts = true -> holder s (fst c) = Some t).
      { intros t [a m] ts l T L. apply (j_hold _ IH). eauto. }
      destruct Mv as [t c l T|a t q c d l H Qu T|t a m l T|t a m p stopped u f l ts kept cs T P Af|t c i k b l o T O|t c is k b l os T O|t c is f b l os T O|t c l T D|t c d l T D|t c ts ts' l T D It].
      + eapply J_change; try exact T; auto.
        * intros a Na. rewrite upd_ne; auto.
        * intros i Ni. tauto.
        * cbn. split; [intros Q; elim (NH _ _ _ _ T eq_refl Q)|discriminate].
        * intros i Ni. rewrite upd_eq, in_app_iff. cbn. intuition congruence.
        * rewrite upd_eq, in_app_iff. cbn. tauto.
        * rewrite upd_eq. apply NoDup_snoc; [apply IH|]. eapply NQ; eauto.
      + assert (fst c = a).
        { assert (I : In t (queue s a)) by (rewrite Qu; now left). apply (j_queue _ IH) in I. destruct I as (m0 & ts0 & l0 & A & B).
          rewrite A in T. injection T as <- _ _. reflexivity. }
        subst a. pose proof (j_nodup _ IH (fst c)) as ND. rewrite Qu in ND. inversion ND; subst.
        eapply J_change; try exact T; auto.
        * intros b0 Nb. rewrite !upd_ne; auto.
        * intros i Ni. rewrite upd_eq, H. split; congruence.
        * rewrite upd_eq. cbn. tauto.
        * intros i Ni. rewrite upd_eq, Qu. cbn. intuition congruence.
        * rewrite upd_eq. cbn. split; [contradiction|discriminate].
        * rewrite upd_eq. auto.
      + pose proof (YH _ _ _ _ T eq_refl) as Ho. cbn [fst] in Ho.
        eapply J_change; try exact T; auto; cbn [fst].
        * intros b0 Nb. rewrite !upd_ne; auto.
        * intros i Ni. rewrite upd_eq, Ho. split; congruence.
        * rewrite upd_eq. cbn. split; discriminate.
        * intros i Ni. rewrite upd_eq, in_app_iff. cbn. intuition congruence.
        * rewrite upd_eq, in_app_iff. cbn. tauto.
        * rewrite upd_eq. apply NoDup_snoc; [apply IH|]. exact (NQ _ _ _ _ T eq_refl).
      + pose proof (YH _ _ _ _ T eq_refl) as Ho. cbn [fst] in Ho. destruct (after_lock _ _ _ _ _ Af) as [L1 L2].
        pose proof (NQ _ _ _ _ T eq_refl) as Nq. cbn [fst] in Nq.
        eapply J_change; try exact T; auto; cbn [fst].
        * intros b Nb. destruct kept; auto. rewrite upd_ne; auto.
        * intros i Ni. destruct kept; [tauto|]. rewrite upd_eq, Ho. split; congruence.
        * rewrite L1. destruct kept; [tauto|]. rewrite upd_eq. split; discriminate.
        * tauto.
        * rewrite L2. split; [contradiction|discriminate].
        * apply IH.
      + pose proof (NQ _ _ _ _ T eq_refl) as Nq. pose proof (YH _ _ _ _ T eq_refl) as Ho.
        eapply J_change; try exact T; auto; cbn; try tauto; [intuition discriminate|apply IH].
      + pose proof (NH _ _ _ _ T eq_refl) as Nh.
        eapply J_change; try exact T; auto.
        * intros b0 Nb. rewrite !upd_ne; auto.
        * tauto.
        * cbn. intuition discriminate.
        * intros i Ni. rewrite upd_eq, in_app_iff. cbn. intuition congruence.
        * rewrite upd_eq, in_app_iff. cbn. tauto.
        * rewrite upd_eq. apply NoDup_snoc; [apply IH|]. eapply NQ; eauto.
      + pose proof (NQ _ _ _ _ T eq_refl) as Nq. pose proof (NH _ _ _ _ T eq_refl) as Nh.
        eapply J_change; try exact T; auto; cbn; try tauto; [intuition discriminate|intuition discriminate|apply IH].
      + pose proof (NQ _ _ _ _ T eq_refl) as Nq. pose proof (NH _ _ _ _ T eq_refl) as Nh.
        eapply J_change; try exact T; auto; cbn; try tauto; [intuition discriminate|intuition discriminate|apply IH].
      + pose proof (NH _ _ _ _ T eq_refl) as Nh. eapply J_change; try exact T; auto.
        * intros b0 Nb. rewrite !upd_ne; auto.
        * tauto.
        * cbn. intuition discriminate.
        * intros i Ni. rewrite upd_eq. split; [intros W; apply in_remove in W; tauto|]. intros W. now apply in_in_remove.
        * rewrite upd_eq. cbn. split; [intros W; apply in_remove in W; tauto|discriminate].
        * rewrite upd_eq. apply NoDup_remove_all. apply IH.
      + assert (E1 : has_lock ts' = has_lock ts /\ queued ts = false /\ queued ts' = false).
        { destruct ts as [|d|d|i k [|]|[|i is] k [|]|[|i is] f [|]|o]; cbn in It; try discriminate; injection It as <-; auto. }
        destruct E1 as (E1 & E2 & E3). pose proof (NQ _ _ _ _ T E2) as Nq.
        eapply J_change; try exact T; auto; try tauto.
        * rewrite E1. destruct (has_lock ts) eqn:L; [pose proof (YH _ _ _ _ T L); tauto|pose proof (NH _ _ _ _ T L); intuition discriminate].
        * rewrite E3. intuition discriminate.
        * apply IH.
    - destruct IH. constructor; auto.
  Qed.

  (** ** What the methods get *)
  Notation made := (@called M V E St).
  Definition grows (l l' : list task) : Prop := forall i c ts lg, nth_error l i = Some (mkTask c ts lg) ->
    exists ts' lg', nth_error l' i = Some (mkTask c ts' lg') /\ (forall o, ts = Done o -> ts' = ts).

  Lemma grows_put : forall l t c ts lg ts' lg' cs, nth_error l t = Some (mkTask c ts lg) -> (forall o, ts <> Done o) ->
    grows l (put l t (mkTask c ts' lg') ++ new cs).
  Proof.
    intros l t c ts lg ts' lg' cs T ND i c0 ts0 lg0 Q. destruct (Nat.eq_dec i t) as [->|N].
    - rewrite T in Q. injection Q as <- <- <-. exists ts', lg'. split; [eapply look_eq; eauto|]. intros o W. elim (ND o W).
    - exists ts0, lg0. split; [apply look_ne; auto|auto].
  Qed.
  Lemma move_task : forall s s', move s s' -> exists t c ts lg ts' lg' cs,
    nth_error (tasks s) t = Some (mkTask c ts lg) /\ (forall o, ts <> Done o) /\ tasks s' = put (tasks s) t (mkTask c ts' lg') ++ new cs.
  Proof.
    intros s s' Mv. destruct Mv; do 7 eexists; (split; [eassumption|split; [|reflexivity]]); intros oo ?; try discriminate. subst. discriminate.
  Qed.
  Lemma grows_move : forall s s', move s s' -> grows (tasks s) (tasks s').
  Proof.
    intros s s' Mv. destruct (move_task _ _ Mv) as (t & c & ts & lg & ts' & lg' & cs & T & ND & ->). eapply grows_put; eauto.
  Qed.
  Lemma made_grows : forall l l' is cs, grows l l' -> made l is cs -> made l' is cs.
  Proof.
    intros l l' is cs G F. induction F as [|i c is cs (ts & lg & Q) F IH]; constructor; auto.
    destruct (G _ _ _ _ Q) as (ts' & lg' & A & _). eauto.
  Qed.
  Lemma answered_grows : forall l l' is cs os, grows l l' -> answered l is cs os -> answered l' is cs os.
  Proof.
    intros l l' is cs os G A. induction A as [|i is c cs o os lg Q A IH]; [constructor|].
    destruct (G _ _ _ _ Q) as (ts' & lg' & B & C). rewrite (C o eq_refl) in B. econstructor; eauto.
  Qed.
  Lemma waited_grows : forall l l' is cs b r, grows l l' -> waited cancelled l is cs b r -> waited cancelled l' is cs b r.
  Proof.
    intros l l' is cs b r G A. destruct A as [os r A B|A|i c e lg A I1 B|v A].
    - eapply w_normal; eauto using answered_grows.
    - apply w_cancelled. eauto using made_grows.
    - destruct (G _ _ _ _ B) as (ts' & lg' & C & D). rewrite (D _ eq_refl) in C. eapply w_failed; eauto using made_grows.
    - apply w_value. eauto using answered_grows.
  Qed.
  Lemma follows_grows : forall l l' p lg w, grows l l' -> follows none cancelled l p lg w -> follows none cancelled l' p lg w.
  Proof.
    intros l l' p lg w G F. induction F; econstructor; eauto using waited_grows.
  Qed.
  Lemma gather_gathered : forall os, gathered os (gather os).
  Proof.
    induction os as [|[v|e] os IH]; cbn.
    - exact (all_fine _ _ []).
    - inversion IH as [vs A B|vs e rest A B]; [exact (all_fine _ _ (v :: vs))|exact (first_failure _ _ (v :: vs) e rest)].
    - exact (first_failure _ _ [] e os).
  Qed.

  (** *** Marks *)
  Lemma set_all_in : forall {X} (f : nat -> X) is x i, In i is -> set_all f is x i = x.
  Proof.
    intros X f is x i I. unfold set_all. assert (Q : existsb (Nat.eqb i) is = true) by (apply existsb_exists; exists i; split; auto; apply Nat.eqb_refl).
    now rewrite Q.
  Qed.
  Lemma set_all_out : forall {X} (f : nat -> X) is x i, ~ In i is -> set_all f is x i = f i.
  Proof.
    intros X f is x i I. unfold set_all. destruct (existsb (Nat.eqb i) is) eqn:Q; auto. apply existsb_exists in Q. destruct Q as (j & A & B).
    apply Nat.eqb_eq in B. subst. contradiction.
  Qed.
  Lemma set_all_dec : forall {X} (f : nat -> X) is x i, (In i is /\ set_all f is x i = x) \/ (~ In i is /\ set_all f is x i = f i).
  Proof. intros. destruct (in_dec Nat.eq_dec i is) as [I1|I1]; [left|right]; split; auto using set_all_in, set_all_out. Qed.

  Definition is_done (l : list task) (i : nat) : Prop := exists c o lg, nth_error l i = Some (mkTask c (Done o) lg).
  Definition clean (mk : marks) (i : nat) : Prop := asked mk i = false /\ got mk i = false /\ left mk i = false.
  Record K (s : st) : Prop := {
    k_fresh : forall i, length (tasks s) <= i -> clean (marked s) i /\ parent (marked s) i = None /\ replied (marked s) i = false;
    k_parent : forall t c ts lg i, nth_error (tasks s) t = Some (mkTask c ts lg) -> In i (kids ts) -> parent (marked s) i = Some t;
    k_calm : forall t c ts lg i, nth_error (tasks s) t = Some (mkTask c ts lg) -> cut_off ts = false -> In i (kids ts) -> clean (marked s) i;
    k_told : forall t c ts lg i, nth_error (tasks s) t = Some (mkTask c ts lg) -> cut_off ts = true -> In i (kids ts) ->
      asked (marked s) i = true \/ left (marked s) i = true;
    k_some : forall t c ts lg, nth_error (tasks s) t = Some (mkTask c ts lg) -> cut_off ts = true -> kids ts <> [];
    k_single : forall t c ts lg i, nth_error (tasks s) t = Some (mkTask c ts lg) -> kids ts = [i] -> replied (marked s) i = false;
    k_tree : forall i t, parent (marked s) i = Some t -> exists c ts lg, nth_error (tasks s) t = Some (mkTask c ts lg) /\ In i (waited_for lg ++ kids ts);
    k_past : forall t c ts lg i, nth_error (tasks s) t = Some (mkTask c ts lg) -> In i (waited_for lg) -> left (marked s) i = true \/ is_done (tasks s) i }.

  Lemma done_grows : forall l l' i, grows l l' -> is_done l i -> is_done l' i.
  Proof.
    intros l l' i G (c & o & lg & Q). destruct (G _ _ _ _ Q) as (ts' & lg' & A & B). rewrite (B o eq_refl) in A. do 3 eexists. exact A.
  Qed.
  Lemma results_past : forall s b is os i, results s b is = Some os -> In i is -> left (marked s) i = true \/ is_done (tasks s) i.
  Proof.
    intros s b is. induction is as [|j is IH]; intros os i Q I1; [destruct I1|]. cbn [YieldModel.results] in Q.
    destruct (result_of s b j) as [o|] eqn:Q1; [|discriminate]. destruct (results s b is) as [os'|] eqn:Q2; [|discriminate].
    destruct I1 as [<-|I1]; [|eauto]. unfold YieldModel.result_of in Q1. destruct (left (marked s) j); auto. right.
    destruct (nth_error (tasks s) j) as [[c ts lg]|] eqn:T; [|discriminate]. destruct ts; try discriminate. do 3 eexists. exact T.
  Qed.
  Lemma wf_app : forall (a b : list (entry V E St)), waited_for (a ++ b) = waited_for a ++ waited_for b.
  Proof. intros. apply flat_map_app. Qed.
  Lemma after_kids : forall n a ts kept cs, after n a = (ts, kept, cs) -> kids ts = seq n (length cs) /\ cut_off ts = false.
  Proof. intros n a ts kept cs Q. destruct a; cbn in Q; injection Q as <- <- <-; auto. Qed.

  (** Moves that make no calls and change no mark but [got t] *)
  Lemma K_quiet : forall s t c ts l ts' l' ho qu me hi mk, K s -> nth_error (tasks s) t = Some (mkTask c ts l) -> (forall o, ts <> Done o) ->
    asked mk = asked (marked s) -> left mk = left (marked s) -> replied mk = replied (marked s) -> parent mk = parent (marked s) ->
    (forall i, got mk i = got (marked s) i \/ (i = t /\ asked (marked s) t = true)) ->
    (kids ts' = kids ts /\ cut_off ts' = cut_off ts /\ waited_for l' = waited_for l \/
     kids ts' = [] /\ cut_off ts' = false /\ waited_for l' = waited_for l ++ kids ts /\
     forall i, In i (kids ts) -> left (marked s) i = true \/ is_done (tasks s) i) ->
    K (mkSt (put (tasks s) t (mkTask c ts' l') ++ new []) ho qu me hi mk).
  Proof.
    intros s t c ts l ts' l' ho qu me hi mk [K1 K2 K3 K4 K5 K8 K6 K7] T ND EA EL ER EP EG W.
    assert (G : grows (tasks s) (put (tasks s) t (mkTask c ts' l') ++ new [])) by (eapply grows_put; eauto).
    assert (CL : forall i, clean (marked s) i -> clean mk i).
    { intros i (A & B & C). unfold clean. rewrite EA, EL. destruct (EG i) as [->|[-> D]]; [auto|congruence]. }
    constructor; cbn [tasks marked]; rewrite ?EA, ?EL, ?EP, ?ER; auto.
    - intros i Li. destruct (K1 i) as (A & B & B2); [|auto]. rewrite app_length, put_length in Li. cbn in Li. lia.
    - intros t1 c1 ts1 l1 i Q I1. destruct (look _ _ _ _ _ _ _ T Q) as [[-> X]|[[_ X]|(_ & c2 & [] & _)]]; [|eauto].
      injection X as -> -> ->. destruct W as [(A & B & C)|(A & B & C)]; rewrite A in I1; [eauto|destruct I1].
    - intros t1 c1 ts1 l1 i Q CO I1. destruct (look _ _ _ _ _ _ _ T Q) as [[-> X]|[[_ X]|(_ & c2 & [] & _)]]; [|eauto].
      injection X as -> -> ->. destruct W as [(A & B & C)|(A & B & C)]; rewrite A in I1; [rewrite B in CO; eauto|destruct I1].
    - intros t1 c1 ts1 l1 i Q CO I1. destruct (look _ _ _ _ _ _ _ T Q) as [[-> X]|[[_ X]|(_ & c2 & [] & _)]]; [|eauto].
      injection X as -> -> ->. destruct W as [(A & B & C)|(A & B & C)]; rewrite A in I1; [rewrite B in CO; eauto|destruct I1].
    - intros t1 c1 ts1 l1 Q CO. destruct (look _ _ _ _ _ _ _ T Q) as [[-> X]|[[_ X]|(_ & c2 & [] & _)]]; [|eauto].
      injection X as -> -> ->. destruct W as [(A & B & C)|(A & B & C)]; [rewrite A; rewrite B in CO; eauto|congruence].
    - intros t1 c1 ts1 l1 i Q I1. destruct (look _ _ _ _ _ _ _ T Q) as [[-> X]|[[_ X]|(_ & c2 & [] & _)]]; [|eauto].
      injection X as -> -> ->. destruct W as [(A & B & C)|(A & B & C)]; rewrite A in I1; [eauto|discriminate].
    - intros i t1 P. destruct (K6 _ _ P) as (c1 & ts1 & l1 & A & B). destruct (Nat.eq_dec t1 t) as [->|N].
      + rewrite A in T. injection T as -> -> ->. exists c, ts', l'. split; [eapply look_eq; eauto|].
        destruct W as [(-> & _ & ->)|(-> & _ & -> & _)]; auto. now rewrite app_nil_r.
      + exists c1, ts1, l1. split; auto. apply look_ne; auto.
    - intros t1 c1 ts1 l1 i Q I1. assert (X : left (marked s) i = true \/ is_done (tasks s) i).
      { destruct (look _ _ _ _ _ _ _ T Q) as [[-> X]|[[_ X]|(_ & c2 & [] & _)]]; [|eauto]. injection X as -> -> ->.
        destruct W as [(_ & _ & A)|(_ & _ & A & B)]; rewrite A in I1; [eauto|]. apply in_app_iff in I1. destruct I1; eauto. }
      destruct X; [auto|right]. eapply done_grows; eauto.
  Qed.

  Lemma K_reach : forall s, reach s -> K s.
  Proof.
    induction 1 as [|s c0 R IH|s s' R IH Mv|s mk R IH Fl].
    - constructor; cbn.
      + intros i _. repeat split.
      + intros [|t] ? ? ? ? Q; discriminate.
      + intros [|t] ? ? ? ? Q; discriminate.
      + intros [|t] ? ? ? ? Q; discriminate.
      + intros [|t] ? ? ? Q; discriminate.
      + intros [|t] ? ? ? ? Q; discriminate.
      + discriminate.
      + intros [|t] ? ? ? ? Q; discriminate.
    - destruct IH as [K1 K2 K3 K4 K5 K8 K6 K7].
      assert (OLD : forall t c ts lg, nth_error (tasks s ++ new [c0]) t = Some (mkTask c ts lg) ->
        nth_error (tasks s) t = Some (mkTask c ts lg) \/ (ts = Sent /\ lg = [])).
      { intros t c ts lg Q. destruct (Nat.lt_ge_cases t (length (tasks s))) as [L|L].
        - rewrite nth_error_app1 in Q by auto. auto.
        - rewrite nth_error_app2 in Q by auto. destruct (t - length (tasks s)) as [|k]; cbn in Q; [injection Q as <- <- <-; auto|destruct k; discriminate]. }
      assert (UP : forall t x, nth_error (tasks s) t = Some x -> nth_error (tasks s ++ new [c0]) t = Some x).
      { intros t x Q. rewrite nth_error_app1; auto. eapply bound; eauto. }
      constructor; cbn [tasks marked].
      + intros i Li. apply K1. rewrite app_length in Li. lia.
      + intros t c ts lg i Q I1. destruct (OLD _ _ _ _ Q) as [A|[-> ->]]; [eauto|destruct I1].
      + intros t c ts lg i Q CO I1. destruct (OLD _ _ _ _ Q) as [A|[-> ->]]; [eauto|destruct I1].
      + intros t c ts lg i Q CO I1. destruct (OLD _ _ _ _ Q) as [A|[-> ->]]; [eauto|destruct I1].
      + intros t c ts lg Q CO. destruct (OLD _ _ _ _ Q) as [A|[-> ->]]; [eauto|discriminate].
      + intros t c ts lg i Q I1. destruct (OLD _ _ _ _ Q) as [A|[-> ->]]; [eauto|discriminate].
      + intros i t P. destruct (K6 _ _ P) as (c & ts & lg & A & B). exists c, ts, lg. auto.
      + intros t c ts lg i Q I1. destruct (OLD _ _ _ _ Q) as [A|[-> ->]]; [|destruct I1].
        destruct (K7 _ _ _ _ _ A I1) as [B|(c1 & o & l1 & B)]; auto. right. exists c1, o, l1. auto.
    - pose proof IH as KK. destruct IH as [K1 K2 K3 K4 K5 K8 K6 K7].
      assert (GT : forall t (D : due s t) i, got (with_got (marked s) t []) i = got (marked s) i \/ i = t /\ asked (marked s) t = true).
      { intros t [D _] i. cbn. unfold upd. destruct (Nat.eqb_spec i t); auto. }
      destruct Mv as [t c l T|a t q c d l H Qu T|t a m l T|t a m p stopped u f l ts kept cs T P Af|t c i k b l o T O|t c is k b l os T O|t c is f b l os T O|t c l T D|t c d l T D|t c ts ts' l T D It];
        try (eapply K_quiet; [exact KK|exact T|intros; discriminate| | | | | |]; auto; cbn [kids cut_off]; auto; fail);
        try (eapply K_quiet; [exact KK|exact T|intros; discriminate| | | | | |]; auto; right; cbn [kids cut_off]; rewrite wf_app; repeat split; auto;
             [cbn; now rewrite ?app_nil_r|]; intros i0 I0; eapply results_past; eauto; fail).
      + (* a segment *)
        set (n := length (tasks s)) in *. destruct (after_kids _ _ _ _ _ Af) as [AK AC].
        set (mk0 := if stopped then with_got (marked s) t [] else marked s).
        assert (EA : asked mk0 = asked (marked s) /\ left mk0 = left (marked s) /\ parent mk0 = parent (marked s) /\ replied mk0 = replied (marked s)).
        { unfold mk0. destruct stopped; repeat split. }
        destruct EA as (EA & EL & EP & ER).
        assert (EG : forall i, got mk0 i = got (marked s) i \/ i = t /\ asked (marked s) t = true).
        { intros i. unfold mk0. destruct stopped; auto. apply GT. apply P. }
        assert (CL : forall i, clean (marked s) i -> clean mk0 i).
        { intros i (A & B & C). unfold clean. rewrite EA, EL. destruct (EG i) as [->|[-> X]]; [auto|congruence]. }
        assert (Bt : t < n) by (eapply bound; eauto).
        match goal with |- K ?x => set (s' := x) end.
        assert (G : grows (tasks s) (tasks s')) by (cbn; eapply grows_put; eauto; discriminate).
        assert (LK : forall t1 c1 ts1 l1, nth_error (tasks s') t1 = Some (mkTask c1 ts1 l1) ->
          (t1 = t /\ ts1 = ts /\ waited_for l1 = waited_for l) \/ (t1 <> t /\ nth_error (tasks s) t1 = Some (mkTask c1 ts1 l1)) \/ (ts1 = Sent /\ l1 = [])).
        { intros t1 c1 ts1 l1 Q. cbn [s' tasks] in Q. destruct (look _ _ _ _ _ _ _ T Q) as [[-> X]|[[N X]|(_ & c2 & _ & X)]]; auto.
          - left. injection X as -> -> ->. repeat split. rewrite wf_app. destruct stopped; cbn; apply app_nil_r.
          - injection X as -> -> ->. auto. }
        assert (OUT : forall i, i < n -> parent (marked s') i = parent (marked s) i).
        { intros i Li. cbn [s' marked]. unfold with_parent. cbn [parent]. rewrite EP. apply set_all_out. rewrite in_seq. lia. }
        assert (CLs : forall i, clean mk0 i -> clean (marked s') i) by (intros i X; exact X).
        assert (KB : forall t1 c1 ts1 l1 i, nth_error (tasks s) t1 = Some (mkTask c1 ts1 l1) -> In i (kids ts1) -> i < n).
        { intros t1 c1 ts1 l1 i Q I1. destruct (Nat.lt_ge_cases i n) as [L|L]; auto. apply K1 in L. destruct L as (_ & L & _). rewrite (K2 _ _ _ _ _ Q I1) in L. discriminate. }
        constructor.
        * intros i Li. cbn [s' tasks] in Li. rewrite app_length, put_length in Li. unfold YieldModel.new in Li. rewrite map_length in Li. fold n in Li.
          destruct (K1 i) as (A & B & B2); [fold n; lia|]. split; [apply CLs, CL, A|]. cbn [s' marked]. unfold with_parent. cbn [parent replied]. rewrite EP, ER.
          rewrite set_all_out; auto. rewrite in_seq. lia.
        * intros t1 c1 ts1 l1 i Q I1. destruct (LK _ _ _ _ Q) as [(-> & -> & _)|[[N A]|[-> _]]]; [| |destruct I1].
          -- rewrite AK in I1. cbn [s' marked]. unfold with_parent. cbn [parent]. now apply set_all_in.
          -- rewrite OUT by eauto. eauto.
        * intros t1 c1 ts1 l1 i Q CO I1. destruct (LK _ _ _ _ Q) as [(-> & -> & _)|[[N A]|[-> _]]]; [| |destruct I1].
          -- rewrite AK in I1. apply in_seq in I1. apply CLs, CL. apply K1. fold n. lia.
          -- apply CLs, CL. eauto.
        * intros t1 c1 ts1 l1 i Q CO I1. destruct (LK _ _ _ _ Q) as [(-> & -> & _)|[[N A]|[-> _]]]; [congruence| |destruct I1].
          cbn [s' marked]. unfold with_parent. cbn [asked left]. rewrite EA, EL. eauto.
        * intros t1 c1 ts1 l1 Q CO. destruct (LK _ _ _ _ Q) as [(-> & -> & _)|[[N A]|[-> _]]]; [congruence|eauto|discriminate].
        * intros t1 c1 ts1 l1 i Q I1. cbn [s' marked]. unfold with_parent. cbn [replied]. rewrite ER.
          destruct (LK _ _ _ _ Q) as [(-> & -> & _)|[[N A]|[-> _]]]; [|eauto|discriminate].
          apply K1. assert (X : In i (kids ts)) by (rewrite I1; now left). rewrite AK in X. apply in_seq in X. fold n. lia.
        * intros i t1 Pa. cbn [s' marked] in Pa. unfold with_parent in Pa. cbn [parent] in Pa. rewrite EP in Pa.
          destruct (set_all_dec (parent (marked s)) (seq n (length cs)) (Some t) i) as [[I1 X]|[I1 X]]; rewrite X in Pa.
          -- injection Pa as <-. exists (a, m), ts. eexists. split; [eapply look_eq; eauto|]. apply in_or_app. right. now rewrite AK.
          -- destruct (K6 _ _ Pa) as (c1 & ts1 & l1 & A & B). destruct (Nat.eq_dec t1 t) as [->|N].
             ++ rewrite A in T. injection T as -> -> ->. exists (a, m), ts. eexists. split; [eapply look_eq; eauto|].
                rewrite wf_app. cbn [kids] in B. rewrite app_nil_r in B. apply in_or_app. left. apply in_or_app. auto.
             ++ exists c1, ts1, l1. split; auto. apply look_ne; auto.
        * intros t1 c1 ts1 l1 i Q I1. assert (X : left (marked s) i = true \/ is_done (tasks s) i).
          { destruct (LK _ _ _ _ Q) as [(-> & -> & A)|[[N A]|[-> ->]]]; [rewrite A in I1; eauto|eauto|destruct I1]. }
          destruct X as [X|X]; [left; cbn [s' marked]; unfold with_parent; cbn [left]; now rewrite EL|right]. eapply done_grows; eauto.
      + eapply K_quiet; [exact KK|exact T|intros; discriminate| | | | | |]; auto. right. cbn [kids cut_off]. rewrite wf_app. repeat split; auto.
        intros i0 I0. eapply results_past; eauto.
      + (* a wait is interrupted *)
        assert (E1 : kids ts' = kids ts /\ cut_off ts' = true /\ cut_off ts = false /\ kids ts <> []).
        { destruct ts as [|d|d|i k [|]|[|i is] k [|]|[|i is] f [|]|o]; cbn in It; try discriminate; injection It as <-; repeat split; discriminate. }
        destruct E1 as (E1 & E2 & E3 & E4).
        assert (ND : forall o, ts <> Done o) by (intros o ->; discriminate).
        match goal with |- K ?x => set (s' := x) end.
        assert (G : grows (tasks s) (tasks s')) by (exact (grows_put _ _ _ _ _ ts' l [] T ND)).
        assert (AS : forall i, ~ In i (kids ts) -> asked (marked s') i = asked (marked s) i) by (intros i I1; cbn; now apply set_all_out).
        assert (AS1 : forall i, asked (marked s) i = true -> asked (marked s') i = true).
        { intros i A. cbn. destruct (set_all_dec (asked (marked s)) (kids ts) true i) as [[_ ->]|[_ ->]]; auto. }
        assert (CL : forall i, ~ In i (kids ts) -> clean (marked s) i -> clean (marked s') i).
        { intros i I1 (A & B & C). split; [rewrite AS; auto|]. split; [|exact C]. destruct D as [D _]. cbn. unfold upd. destruct (Nat.eqb_spec i t); congruence. }
        assert (LK : forall t1 c1 ts1 l1, nth_error (tasks s') t1 = Some (mkTask c1 ts1 l1) ->
          (t1 = t /\ ts1 = ts' /\ l1 = l) \/ (t1 <> t /\ nth_error (tasks s) t1 = Some (mkTask c1 ts1 l1))).
        { intros t1 c1 ts1 l1 Q. cbn [s' tasks] in Q. destruct (look _ _ _ _ _ _ _ T Q) as [[-> X]|[[N X]|(_ & c2 & [] & _)]]; auto.
          left. injection X as -> -> ->. auto. }
        constructor.
        * intros i Li. cbn [s' tasks] in Li. rewrite app_length, put_length in Li. destruct (K1 i) as (A & B & B2); [lia|]. split; auto. apply CL; auto.
          intros I1. rewrite (K2 _ _ _ _ _ T I1) in B. discriminate.
        * intros t1 c1 ts1 l1 i Q I1. cbn [s' marked with_got parent]. destruct (LK _ _ _ _ Q) as [(-> & -> & _)|[N A]]; [rewrite E1 in I1|]; eauto.
        * intros t1 c1 ts1 l1 i Q CO I1. destruct (LK _ _ _ _ Q) as [(-> & -> & _)|[N A]]; [congruence|]. apply CL; eauto.
          intros I2. pose proof (K2 _ _ _ _ _ A I1) as P1. rewrite (K2 _ _ _ _ _ T I2) in P1. congruence.
        * intros t1 c1 ts1 l1 i Q CO I1. destruct (LK _ _ _ _ Q) as [(-> & -> & _)|[N A]].
          -- left. cbn. apply set_all_in. now rewrite <- E1.
          -- destruct (K4 _ _ _ _ _ A CO I1) as [X|X]; auto.
        * intros t1 c1 ts1 l1 Q CO. destruct (LK _ _ _ _ Q) as [(-> & -> & _)|[N A]]; [now rewrite E1|eauto].
        * intros t1 c1 ts1 l1 i Q I1. cbn [s' marked with_got replied]. destruct (LK _ _ _ _ Q) as [(-> & -> & _)|[N A]]; [rewrite E1 in I1|]; eauto.
        * intros i t1 Pa. cbn [s' marked with_got parent] in Pa. destruct (K6 _ _ Pa) as (c1 & ts1 & l1 & A & B). destruct (Nat.eq_dec t1 t) as [->|N].
          -- rewrite A in T. injection T as -> -> ->. exists c, ts', l. split; [eapply look_eq; eauto|]. now rewrite E1.
          -- exists c1, ts1, l1. split; auto. apply look_ne; auto.
        * intros t1 c1 ts1 l1 i Q I1. cbn [s' marked with_got left]. assert (X : left (marked s) i = true \/ is_done (tasks s) i).
          { destruct (LK _ _ _ _ Q) as [(-> & -> & ->)|[N A]]; eauto. }
          destruct X; auto. right. eapply done_grows; eauto.
    - destruct IH as [K1 K2 K3 K4 K5 K8 K6 K7]. destruct Fl as [t x T P|t c l T A P|t c ts l is T CO IN|t p c ts l P T IN LE].
      + assert (CL : forall i, i <> t -> clean (marked s) i -> clean (mkMarks (upd (asked (marked s)) t true) (got (marked s)) (left (marked s)) (replied (marked s)) (parent (marked s))) i).
        { intros i N (A & B & C). repeat split; auto. cbn. rewrite upd_ne; auto. }
        constructor; cbn [tasks marked remark got left parent]; auto.
        * intros i Li. destruct (K1 i Li) as (A & B & B2). split; auto. apply CL; auto. intros ->. apply bound in T. lia.
        * intros t1 c1 ts1 l1 i Q CO I1. apply CL; eauto. intros ->. rewrite (K2 _ _ _ _ _ Q I1) in P. discriminate.
        * intros t1 c1 ts1 l1 i Q CO I1. destruct (K4 _ _ _ _ _ Q CO I1) as [A|A]; auto. left. cbn [asked]. unfold upd. destruct (i =? t); auto.
      + assert (CL : forall i, i <> t -> clean (marked s) i -> clean (mkMarks (upd (asked (marked s)) t false) (got (marked s)) (upd (left (marked s)) t true) (replied (marked s)) (parent (marked s))) i).
        { intros i N (A1 & B & C). repeat split; auto; cbn; rewrite upd_ne; auto. }
        constructor; cbn [tasks marked remark got left parent]; auto.
        * intros i Li. destruct (K1 i Li) as (A1 & B & B2). split; auto. apply CL; auto. intros ->. apply bound in T. lia.
        * intros t1 c1 ts1 l1 i Q CO I1. apply CL; eauto. intros ->. destruct (K3 _ _ _ _ _ Q CO I1) as [A1 _]. congruence.
        * intros t1 c1 ts1 l1 i Q CO I1. cbn [asked]. unfold upd. destruct (Nat.eqb_spec i t); auto. eauto.
        * intros t1 c1 ts1 l1 i Q I1. unfold upd. destruct (i =? t); auto. eauto.
      + assert (CL : forall i, ~ In i is -> clean (marked s) i -> clean (mkMarks (asked (marked s)) (got (marked s)) (set_all (left (marked s)) is true) (replied (marked s)) (parent (marked s))) i).
        { intros i N (A1 & B & C). repeat split; auto; cbn. rewrite set_all_out; auto. }
        constructor; cbn [tasks marked remark got left parent]; auto.
        * intros i Li. destruct (K1 i Li) as (A1 & B & B2). split; auto. apply CL; auto. intros I1. apply IN in I1. rewrite (K2 _ _ _ _ _ T I1) in B. discriminate.
        * intros t1 c1 ts1 l1 i Q CO1 I1. apply CL; eauto. intros I2. apply IN in I2. pose proof (K2 _ _ _ _ _ Q I1) as P1.
          rewrite (K2 _ _ _ _ _ T I2) in P1. injection P1 as <-. rewrite Q in T. injection T as -> -> ->. congruence.
        * intros t1 c1 ts1 l1 i Q CO1 I1. destruct (set_all_dec (left (marked s)) is true i) as [[_ ->]|[_ ->]]; auto. cbn [asked]. eauto.
        * intros t1 c1 ts1 l1 i Q I1. destruct (set_all_dec (left (marked s)) is true i) as [[_ ->]|[_ ->]]; auto. eauto.
      + constructor; cbn [tasks marked remark asked got left parent]; auto.
        * intros i Li. destruct (K1 i Li) as (A1 & B & B2). split; auto. split; auto. cbn [replied]. rewrite upd_ne; auto. intros ->. congruence.
        * intros t1 c1 ts1 l1 i Q I1. cbn [replied]. unfold upd. destruct (Nat.eqb_spec i t) as [->|]; [|eauto]. exfalso.
          assert (X : In t (kids ts1)) by (rewrite I1; now left). rewrite (K2 _ _ _ _ _ Q X) in P. injection P as ->. rewrite Q in T. injection T as -> -> ->.
          rewrite I1 in LE. cbn in LE. lia.
  Qed.

  Lemma results_answered : forall s is cs os, made (tasks s) is cs -> (forall i, In i is -> left (marked s) i = false) -> results s false is = Some os ->
    answered (tasks s) is cs os.
  Proof.
    intros s is cs os F. revert os. induction F as [|i c is cs (ts & lg & Q) F IH]; intros os NL O; cbn [YieldModel.results] in O.
    - injection O as <-. constructor.
    - unfold YieldModel.result_of in O. rewrite (NL i (or_introl eq_refl)), Q in O. destruct ts; try discriminate. cbn [andb] in O.
      destruct (results s false is) as [os'|]; [|discriminate]. injection O as <-.
      econstructor; eauto. apply IH; auto. intros j Ij. apply NL. now right.
  Qed.
  Lemma results_true : forall s is os, results s true is = Some os ->
    Forall2 (fun i o => o = Err cancelled \/ exists c lg, nth_error (tasks s) i = Some (mkTask c (Done o) lg)) is os.
  Proof.
    intros s is. induction is as [|i is IH]; intros os O; cbn [YieldModel.results] in O; [injection O as <-; constructor|].
    destruct (result_of s true i) as [o|] eqn:Q1; [|discriminate]. destruct (results s true is) as [os'|] eqn:Q2; [|discriminate]. injection O as <-.
    constructor; auto. unfold YieldModel.result_of in Q1. destruct (left (marked s) i); [injection Q1 as <-; auto|].
    destruct (nth_error (tasks s) i) as [[c ts lg]|]; [|discriminate]. destruct ts; try discriminate. injection Q1 as <-.
    destruct (negb (got (marked s) i) && negb (replied (marked s) i)); auto. right. eauto.
  Qed.
  Lemma gather_err : forall os e, gather os = inr e -> In (Err e) os.
  Proof.
    induction os as [|[v|e0] os IH]; intros e Q; cbn in Q; [discriminate| |injection Q as ->; now left].
    destruct (gather os) as [vs|e1] eqn:G; [discriminate|]. injection Q as ->. right. auto.
  Qed.
  Lemma results_waited : forall s is cs os b, made (tasks s) is cs -> (b = false -> forall i, In i is -> left (marked s) i = false) ->
    (b = true -> is <> []) -> results s b is = Some os -> waited cancelled (tasks s) is cs b (conclude b os).
  Proof.
    intros s is cs os b F NL NE O. unfold YieldModel.conclude. destruct b.
    - cbn [andb]. pose proof (results_true _ _ _ O) as F2. destruct (gather os) as [vs|e] eqn:G.
      + destruct F2 as [|i o is os W F2]; [elim (NE eq_refl eq_refl)|]. destruct F2 as [|i2 o2 is os W2 F2]; [|apply w_cancelled; auto].
        cbn [length Nat.leb]. destruct o as [v|e]; [|discriminate]. cbn in G. injection G as <-. destruct W as [W|(c & lg & W)]; [discriminate|].
        apply w_value. inversion F as [|? c' ? cs' (ts' & lg' & X) F' E1 E2]; subst. inversion F'; subst. rewrite W in X. injection X as <- _ _.
        econstructor; [exact W|constructor].
      + apply gather_err in G. assert (X : exists i, In i is /\ (e = cancelled \/ exists c lg, nth_error (tasks s) i = Some (mkTask c (Done (Err e)) lg))).
        { clear - F2 G. induction F2 as [|i o is os W F2 IH]; [destruct G|]. destruct G as [->|G].
          - exists i. split; [now left|]. destruct W as [W|W]; [injection W; auto|auto].
          - destruct (IH G) as (j & A & B). exists j. split; [now right|auto]. }
        destruct X as (i & A & [->|(c & lg & B)]); [now apply w_cancelled|]. eapply w_failed; eauto.
    - cbn [andb]. pose proof (gather_gathered os) as GG. destruct (gather os); (eapply w_normal; [|exact GG]); apply results_answered; auto.
  Qed.

  Definition placed (l : list task) (g : bool) (c : call) (ts : tstate) (lg : list (entry V E St)) : Prop :=
    match ts with
    | Sent | Queued Make | Inside Make => lg = []
    | Queued (Go p) | Inside (Go p) => follows none cancelled l (body c) lg (Before p)
    | Awaiting i k _ => exists c', follows none cancelled l (body c) lg (AtAwait c' k) /\ made l [i] [c']
    | Yielded is k _ => exists cs, follows none cancelled l (body c) lg (AtYield cs k) /\ made l is cs
    | Delegated is f _ => exists cs, follows none cancelled l (body c) lg (AtDelegate cs f) /\ made l is cs
    | Done o => follows none cancelled l (body c) lg (Finished o) \/
        (g = true /\ o = Err cancelled /\ exists p, follows none cancelled l (body c) lg (Before p))
    end.
  Lemma placed_grows : forall l l' g g' c ts lg, grows l l' -> (g = true -> g' = true) -> placed l g c ts lg -> placed l' g' c ts lg.
  Proof.
    intros l l' g g' c ts lg G GG P. destruct ts as [|[|p]|[|p]|i k b|is k b|is f b|o]; cbn in *; auto; try (eapply follows_grows; eauto; fail).
    - destruct P as (c' & A & B). exists c'. split; [eapply follows_grows|eapply made_grows]; eauto.
    - destruct P as (c' & A & B). exists c'. split; [eapply follows_grows|eapply made_grows]; eauto.
    - destruct P as (c' & A & B). exists c'. split; [eapply follows_grows|eapply made_grows]; eauto.
    - destruct P as [P|(A & B & p & C)]; [left; eapply follows_grows; eauto|right]. split; auto. split; auto. exists p. eapply follows_grows; eauto.
  Qed.
  Lemma made_new : forall l t x cs, made (put l t x ++ new cs) (seq (length l) (length cs)) cs.
  Proof.
    intros l t x cs. unfold made. assert (G : forall n cs0, (forall j c, nth_error cs0 j = Some c -> nth_error (put l t x ++ new cs) (n + j) = Some (mkTask c Sent [])) ->
      Forall2 (fun i c => exists ts lg, nth_error (put l t x ++ new cs) i = Some (mkTask c ts lg)) (seq n (length cs0)) cs0).
    { intros n cs0. revert n. induction cs0 as [|c cs0 IH]; intros n H; cbn; constructor.
      - exists Sent, []. specialize (H 0 c eq_refl). now rewrite Nat.add_0_r in H.
      - apply IH. intros j c' Q. specialize (H (S j) c' Q). now rewrite <- Nat.add_succ_comm in H. }
    apply G. intros j c Q. now apply look_new.
  Qed.
  Lemma start_placed : forall l g c, placed l g c (Queued (start c)) [].
  Proof.
    intros l g [a m]. unfold YieldModel.start, placed. cbn [fst snd]. destruct (methods a m) eqn:Me; auto.
    unfold YieldModel.body. cbn [fst snd]. rewrite Me. constructor.
  Qed.
  Lemma after_placed : forall l0 t x g c n (a : act) ts kept cs lg, after (length l0) a = (ts, kept, cs) -> n = length l0 ->
    follows none cancelled (put l0 t x ++ new cs) (body c) lg (place_of none a) -> placed (put l0 t x ++ new cs) g c ts lg.
  Proof.
    intros l0 t x g c n a ts kept cs lg Af -> F. pose proof (made_new l0 t x cs) as MN. destruct a; cbn in Af; injection Af as <- <- <-; cbn; auto.
    - exists cs0. auto.
    - exists c0. auto.
    - exists cs0. auto.
  Qed.

  Lemma got_move : forall s s', move s s' -> forall i, got (marked s) i = true -> got (marked s') i = true.
  Proof.
    assert (U : forall mk t is i, got mk i = true -> got (with_got mk t is) i = true).
    { intros mk t is i G. cbn. unfold upd. destruct (i =? t); auto. }
    intros s s' Mv i G. destruct Mv; cbn [marked]; auto. unfold with_parent. cbn [got]. destruct stopped; auto.
  Qed.
  Lemma placed_reach : forall s, reach s -> forall t c ts lg, nth_error (tasks s) t = Some (mkTask c ts lg) ->
    placed (tasks s) (got (marked s) t) c ts lg.
  Proof.
    induction 1 as [|s c0 R IH|s s' R IH Mv|s mk R IH Fl].
    - intros [|t] c ts lg Q; discriminate.
    - assert (G : grows (tasks s) (tasks s ++ new [c0])).
      { intros i c ts lg Q. exists ts, lg. split; auto. rewrite nth_error_app1; auto. eapply bound; eauto. }
      cbn [tasks marked]. intros t c ts lg Q. destruct (Nat.lt_ge_cases t (length (tasks s))) as [L|L].
      + rewrite nth_error_app1 in Q by auto. eapply placed_grows; eauto.
      + rewrite nth_error_app2 in Q by auto. destruct (t - length (tasks s)) as [|k]; cbn in Q; [injection Q as <- <- <-; reflexivity|destruct k; discriminate].
    - pose proof (grows_move _ _ Mv) as G. pose proof (got_move _ _ Mv) as GM. pose proof (K_reach _ R) as KK.
      assert (GEN : forall t c ts lg ts' lg' cs, nth_error (tasks s) t = Some (mkTask c ts lg) ->
        tasks s' = put (tasks s) t (mkTask c ts' lg') ++ new cs ->
        (placed (tasks s) (got (marked s) t) c ts lg -> placed (tasks s') (got (marked s') t) c ts' lg') ->
        forall i c1 ts1 lg1, nth_error (tasks s') i = Some (mkTask c1 ts1 lg1) -> placed (tasks s') (got (marked s') i) c1 ts1 lg1).
      { intros t c ts lg ts' lg' cs T E' P i c1 ts1 lg1 Q. pose proof Q as Q0. rewrite E' in Q.
        destruct (look _ _ _ _ _ _ _ T Q) as [[-> W]|[[_ A1]|(_ & c2 & _ & W)]].
        - injection W as -> -> ->. apply P. eauto.
        - eapply placed_grows; [exact G|apply GM|]. eauto.
        - injection W as -> -> ->. reflexivity. }
      assert (WW : forall t c ts lg cs os, nth_error (tasks s) t = Some (mkTask c ts lg) -> made (tasks s) (kids ts) cs -> results s (cut_off ts) (kids ts) = Some os ->
        waited cancelled (tasks s') (kids ts) cs (cut_off ts) (conclude (cut_off ts) os)).
      { intros t c ts lg cs os T Ma O. eapply waited_grows; [exact G|]. apply results_waited; auto.
        - intros CO i I1. apply (k_calm _ KK _ _ _ _ _ T CO I1).
        - intros CO. exact (k_some _ KK _ _ _ _ T CO). }
      destruct Mv as [t c l T|a t q c d l H Qu T|t a m l T|t a m p stopped u f l ts kept cs T P Af|t c i k b l o T O|t c is k b l os T O|t c is f b l os T O|t c l T D|t c d l T D|t c ts ts' l T D It];
        (eapply GEN; [exact T|reflexivity|]); intros PP.
      + cbn in PP. subst l. apply start_placed.
      + apply (placed_grows _ _ _ _ _ _ _ G (GM t)) in PP. destruct d; exact PP.
      + cbn in PP. subst l. constructor.
      + apply (placed_grows _ _ _ _ _ _ _ G (GM t)) in PP. cbn [placed] in PP.
        eapply after_placed; [exact Af|reflexivity|]. destruct stopped.
        * destruct P as ((u0 & f0 & ->) & _). eapply f_stopped. exact PP.
        * destruct P as (u' & f' & ->). eapply f_ran. exact PP.
      + cbn in PP. destruct PP as (c' & A & B). pose proof (WW _ _ _ _ [c'] [o] T B O) as X. cbn [kids cut_off] in X.
        apply (follows_grows _ _ _ _ _ G) in A. cbn [placed]. unfold YieldModel.conclude in X. cbn in X. destruct o as [v|e].
        * rewrite andb_false_r in X. eapply f_await_ok; eauto.
        * eapply f_await_err; eauto.
      + cbn in PP. destruct PP as (cs & A & B). pose proof (WW _ _ _ _ cs os T B O) as X. cbn [kids cut_off] in X.
        apply (follows_grows _ _ _ _ _ G) in A. cbn [placed]. econstructor; eauto.
      + cbn in PP. destruct PP as (cs & A & B). pose proof (WW _ _ _ _ cs os T B O) as X. cbn [kids cut_off] in X.
        apply (follows_grows _ _ _ _ _ G) in A. cbn [placed]. left. destruct (conclude b os); cbn; [eapply f_delegate_ok|eapply f_delegate_err]; eauto.
      + cbn in PP. subst l. right. cbn. rewrite upd_eq. split; auto. split; auto. eexists. constructor.
      + right. split; [cbn; apply upd_eq|]. split; auto. apply (placed_grows _ _ _ _ _ _ _ G (GM t)) in PP. destruct d as [|p]; cbn in PP.
        * subst l. eexists. constructor.
        * exists p. exact PP.
      + apply (placed_grows _ _ _ _ _ _ _ G (GM t)) in PP.
        destruct ts as [|d|d|i k [|]|[|i is] k [|]|[|i is] f [|]|o]; cbn in It; try discriminate; injection It as <-; exact PP.
    - intros t c ts lg Q. specialize (IH t c ts lg Q). eapply (placed_grows (tasks s) _ (got (marked s) t)); [|intros X; destruct Fl; exact X|exact IH].
      intros i c1 ts1 lg1 Q1. eauto.
  Qed.

  (** ** Whom they wait for *)
  Definition all_kids (x : task) : list nat := waited_for (t_log x) ++ kids (t_state x).
  Definition everybody (l : list task) : list nat := flat_map all_kids l.

  Lemma flat_put : forall l t x y extra, nth_error l t = Some x -> all_kids y = all_kids x ++ extra ->
    Permutation (everybody (put l t y)) (everybody l ++ extra).
  Proof.
    induction l as [|z l IH]; intros [|t] x y extra T Q; cbn in *; try discriminate.
    - injection T as ->. rewrite Q. unfold everybody. rewrite <- !app_assoc. apply Permutation_app_head, Permutation_app_comm.
    - rewrite <- app_assoc. apply Permutation_app_head. eapply IH; eauto.
  Qed.
  Lemma everybody_new : forall l cs, everybody (l ++ new cs) = everybody l.
  Proof.
    intros. unfold everybody. rewrite flat_map_app. replace (flat_map all_kids (new cs)) with (@nil nat); [apply app_nil_r|].
    induction cs; cbn; auto.
  Qed.
  Lemma everybody_move : forall s s', move s s' -> exists cs t x, tasks s' = put (tasks s) t x ++ new cs /\
    Permutation (everybody (tasks s')) (everybody (tasks s) ++ seq (length (tasks s)) (length cs)).
  Proof.
    intros s s' Mv.
    destruct Mv as [t c l T|a t q c d l H Qu T|t a m l T|t a m p stopped u f l ts kept cs T P Af|t c i k b l o T O|t c is k b l os T O|t c is f b l os T O|t c l T D|t c d l T D|t c ts ts' l T D It];
      cbn [tasks]; do 3 eexists; (split; [reflexivity|]); rewrite everybody_new; (eapply flat_put; [exact T|]);
      unfold all_kids; cbn [t_log t_state kids]; rewrite ?wf_app; cbn [waited_for flat_map app length seq]; rewrite ?app_nil_r; auto.
    - destruct (after_kids _ _ _ _ _ Af) as [-> _]. destruct stopped; cbn; now rewrite ?app_nil_r.
    - assert (E1 : kids ts' = kids ts).
      { destruct ts as [|d|d|i k [|]|[|i is] k [|]|[|i is] f [|]|o]; cbn in It; try discriminate; injection It as <-; reflexivity. }
      now rewrite E1.
  Qed.

  Lemma NoDup_both : forall (a b : list nat), NoDup a -> NoDup b -> (forall i, In i a -> In i b -> False) -> NoDup (a ++ b).
  Proof.
    induction a as [|x a IH]; intros b Na Nb D; cbn; auto. inversion Na; subst. constructor.
    - rewrite in_app_iff. intros [Q|Q]; [auto|]. apply (D x); [now left|auto].
    - apply IH; auto. intros i I1. apply D. now right.
  Qed.
  Lemma everybody_reach : forall s, reach s -> NoDup (everybody (tasks s)) /\ forall i, In i (everybody (tasks s)) -> i < length (tasks s).
  Proof.
    induction 1 as [|s c0 R [IH1 IH2]|s s' R [IH1 IH2] Mv|s mk R [IH1 IH2] Fl].
    - cbn. split; [constructor|intros i []].
    - cbn [tasks]. rewrite everybody_new, app_length. cbn. split; auto. intros i I. apply IH2 in I. lia.
    - destruct (everybody_move _ _ Mv) as (cs & t & x & E' & P). split.
      + apply (Permutation_NoDup (Permutation_sym P)). clear P.
        apply NoDup_both; auto using seq_NoDup. intros i I1 I2. apply IH2 in I1. apply in_seq in I2. lia.
      + intros i I. apply (Permutation_in _ P) in I. rewrite E', app_length, put_length. unfold YieldModel.new. rewrite map_length.
        apply in_app_iff in I. destruct I as [I|I]; [apply IH2 in I; lia|apply in_seq in I; lia].
    - cbn [tasks remark]. auto.
  Qed.

  (** ** What happens on one actor *)
  Definition on (a : nat) (r : ran St) : bool := r_actor r =? a.
  Definition by_task (t : nat) (r : ran St) : bool := r_task r =? t.

  Record H (s : st) : Prop := {
    h_chain : forall a, chain (init a) (filter (on a) (hist s)) (mem s a);
    h_log : forall t c ts lg, nth_error (tasks s) t = Some (mkTask c ts lg) -> map r_before (filter (by_task t) (hist s)) = read lg;
    h_bound : forall r, In r (hist s) -> r_task r < length (tasks s);
    h_kept : forall a l r, filter (on a) (hist s) = l ++ [r] -> r_kept r = true -> holder s a = Some (r_task r);
    h_next : forall a l1 r1 r2 l2, filter (on a) (hist s) = l1 ++ r1 :: r2 :: l2 -> r_kept r1 = true -> r_task r2 = r_task r1 }.

  Lemma read_app : forall (a b : list (entry V E St)), read (a ++ b) = read a ++ read b.
  Proof. intros. apply flat_map_app. Qed.
  Lemma no_hist : forall (s : st) t, (forall r, In r (hist s) -> r_task r < length (tasks s)) -> length (tasks s) <= t -> filter (by_task t) (hist s) = [].
  Proof.
    intros s t B L. destruct (filter (by_task t) (hist s)) as [|r l] eqn:F; auto. assert (I : In r (filter (by_task t) (hist s))) by (rewrite F; now left).
    apply filter_In in I. destruct I as [I1 I2]. apply B in I1. apply Nat.eqb_eq in I2. lia.
  Qed.
  Lemma snoc_split : forall (X : Type) (l l1 : list X) x r1 r2 l2, l ++ [x] = l1 ++ r1 :: r2 :: l2 ->
    (exists l2', l2 = l2' ++ [x] /\ l = l1 ++ r1 :: r2 :: l2') \/ (l2 = [] /\ x = r2 /\ l = l1 ++ [r1]).
  Proof.
    intros X l l1 x r1 r2 l2 Q. destruct l2 as [|y l2] using rev_ind.
    - right. replace (l1 ++ [r1; r2]) with ((l1 ++ [r1]) ++ [r2]) in Q by (now rewrite <- app_assoc). apply app_inj_tail in Q. tauto.
    - left. clear IHl2. exists l2. replace (l1 ++ r1 :: r2 :: l2 ++ [y]) with ((l1 ++ r1 :: r2 :: l2) ++ [y]) in Q by (now rewrite <- app_assoc).
      apply app_inj_tail in Q. destruct Q as [-> ->]. auto.
  Qed.

  Lemma H_reach : forall s, reach s -> H s.
  Proof.
    induction 1 as [|s c0 R IH|s s' R IH Mv|s mk R IH Fl].
    - constructor; cbn; auto.
      + intros. constructor.
      + intros [|t] ? ? ? Q; discriminate.
      + intros r [].
      + intros a l r Q. destruct l; discriminate.
      + intros a l1 r1 r2 l2 Q. destruct l1; discriminate.
    - destruct IH as [A1 A2 A3 A4 A5]. constructor; cbn [tasks hist holder mem]; auto.
      + intros t c ts lg Q. destruct (Nat.lt_ge_cases t (length (tasks s))) as [L|L].
        * rewrite nth_error_app1 in Q by auto. eauto.
        * rewrite (no_hist s t) by auto. rewrite nth_error_app2 in Q by auto.
          destruct (t - length (tasks s)) as [|k]; cbn in Q; [injection Q as <- <- <-; reflexivity|destruct k; discriminate].
      + intros r I. rewrite app_length. apply A3 in I. cbn. lia.
    - pose proof (J_reach _ R) as JJ. pose proof (placed_reach _ R) as PL. destruct IH as [A1 A2 A3 A4 A5].
      assert (LOG : forall t c ts lg ts' lg', nth_error (tasks s) t = Some (mkTask c ts lg) -> read lg' = read lg ->
        forall i c1 ts1 lg1, nth_error (put (tasks s) t (mkTask c ts' lg') ++ new []) i = Some (mkTask c1 ts1 lg1) ->
        map r_before (filter (by_task i) (hist s)) = read lg1).
      { intros t c ts lg ts' lg' T RE i c1 ts1 lg1 Q. destruct (look _ _ _ _ _ _ _ T Q) as [[-> W]|[[_ W]|(_ & c2 & [] & _)]].
        - injection W as -> -> ->. rewrite RE. eauto.
        - eauto. }
      assert (BND : forall t x cs r, In r (hist s) -> r_task r < length (put (tasks s) t x ++ new cs)).
      { intros t x cs r I. rewrite app_length, put_length. apply A3 in I. lia. }
      destruct Mv as [t c l T|a t q c d l Ho Qu T|t a m l T|t a m p stopped u f l ts kept cs T P Af|t c i k b l o T O|t c is k b l os T O|t c is f b l os T O|t c l T D|t c d l T D|t c ts ts' l T D It];
        (constructor; cbn [tasks hist holder mem]; auto); try (eapply LOG; [exact T|rewrite ?read_app; cbn [read flat_map]; now rewrite ?app_nil_r]).
      + (* grant: the lock was free, so no segment kept it *)
        intros b l0 r Q K. specialize (A4 b l0 r Q K). unfold upd. destruct (Nat.eqb_spec b a) as [->|]; auto. congruence.
      + (* make: the task has not run *)
        intros b l0 r Q K. specialize (A4 b l0 r Q K). unfold upd. destruct (Nat.eqb_spec b a) as [->|]; auto. exfalso.
        assert (Ht : holder s a = Some t) by (apply (j_hold _ JJ); do 3 eexists; split; [exact T|reflexivity]).
        rewrite Ht in A4. injection A4 as E1.
        pose proof (PL _ _ _ _ T) as P. cbn in P. subst l. pose proof (A2 _ _ _ _ T) as L0. cbn in L0.
        assert (I : In r (filter (by_task t) (hist s))).
        { apply filter_In. split; [|unfold by_task; rewrite E1; apply Nat.eqb_refl].
          assert (I : In r (filter (on a) (hist s))) by (rewrite Q; apply in_or_app; right; now left). apply filter_In in I. tauto. }
        destruct (filter (by_task t) (hist s)); [destruct I|discriminate].
      + (* run: chain *)
        intros b. rewrite filter_app. cbn [filter]. unfold on at 2. cbn [r_actor]. unfold upd. rewrite (Nat.eqb_sym a b).
        destruct (Nat.eqb_spec b a) as [->|Nb]; [|rewrite app_nil_r; auto]. 
        refine (c_next _ (init a) (filter (on a) (hist s)) (mem s a) (mkRan t a (mem s a) (u (mem s a)) kept) _ eq_refl). apply A1.
      + intros i c1 ts1 lg1 Q. rewrite filter_app, map_app. cbn [filter]. unfold by_task at 2. cbn [r_task].
        destruct (look _ _ _ _ _ _ _ T Q) as [[-> W]|[[Ni W]|(L & c2 & _ & W)]].
        * injection W as -> -> ->. rewrite Nat.eqb_refl. rewrite read_app, (A2 _ _ _ _ T). destruct stopped; reflexivity.
        * replace (t =? i) with false by (symmetry; apply Nat.eqb_neq; congruence). cbn [map]. rewrite app_nil_r. eauto.
        * injection W as -> -> ->. rewrite (no_hist s i) by auto.
          replace (t =? i) with false; [reflexivity|]. symmetry. apply Nat.eqb_neq. apply bound in T. lia.
      + intros r I. apply in_app_iff in I. destruct I as [I|[<-|[]]]; [auto|]. cbn [r_task]. rewrite app_length, put_length. apply bound in T. lia.
      + intros b l0 r. rewrite filter_app. cbn [filter]. unfold on at 2. cbn [r_actor].
        assert (Ht : holder s a = Some t) by (apply (j_hold _ JJ); do 3 eexists; split; [exact T|reflexivity]).
        destruct (Nat.eqb_spec a b) as [<-|Nb].
        * intros Q K. apply app_inj_tail in Q. destruct Q as [_ <-]. cbn in *. subst kept. exact Ht.
        * rewrite app_nil_r. intros Q K. specialize (A4 b l0 r Q K). destruct kept; auto. now rewrite upd_ne by auto.
      + intros b l1 r1 r2 l2. rewrite filter_app. cbn [filter]. unfold on at 2. cbn [r_actor].
        assert (Ht : holder s a = Some t) by (apply (j_hold _ JJ); do 3 eexists; split; [exact T|reflexivity]).
        destruct (Nat.eqb_spec a b) as [<-|Nb]; [|rewrite app_nil_r; eauto].
        intros Q K. destruct (snoc_split _ _ _ _ _ _ _ Q) as [(l2' & -> & Q1)|(-> & <- & Q1)]; [eauto|].
        cbn [r_task]. specialize (A4 a _ _ Q1 K). congruence.
    - destruct IH as [A1 A2 A3 A4 A5]. constructor; auto.
  Qed.

  (** ** No deadlock *)
  Lemma kids_later : forall s, reach s -> forall t c ts lg i, nth_error (tasks s) t = Some (mkTask c ts lg) -> In i (kids ts) -> t < i.
  Proof.
    induction 1 as [|s c0 R IH|s s' R IH Mv|s mk R IH Fl]; intros i c ts lg k Q I.
    - destruct i; discriminate.
    - cbn [tasks] in Q. destruct (Nat.lt_ge_cases i (length (tasks s))) as [L|L].
      + rewrite nth_error_app1 in Q by auto. eauto.
      + rewrite nth_error_app2 in Q by auto. destruct (i - length (tasks s)) as [|j]; cbn in Q; [injection Q as <- <- <-; destruct I|destruct j; discriminate].
    - destruct Mv as [t c1 l T|a t q c1 d l Ho Qu T|t a m l T|t a m p stopped u f l ts1 kept cs T P Af|t c1 i1 k1 b l o T O|t c1 is k1 b l os T O|t c1 is f b l os T O|t c1 l T D|t c1 d l T D|t c1 ts1 ts' l T D It];
        cbn [tasks] in Q; destruct (look _ _ _ _ _ _ _ T Q) as [[-> W]|[[_ W]|(_ & c2 & _ & W)]]; try (eapply IH; eauto; fail);
        injection W as -> -> ->; try (destruct I; fail).
      + destruct (after_kids _ _ _ _ _ Af) as [AK _]. rewrite AK in I. apply in_seq in I. apply bound in T. lia.
      + assert (E1 : kids ts' = kids ts1).
        { destruct ts1 as [|d|d|j1 k1 [|]|[|j1 is] k1 [|]|[|j1 is] f [|]|o]; cbn in It; try discriminate; injection It as <-; reflexivity. }
        rewrite E1 in I. eauto.
    - eauto.
  Qed.

  Section Layers.
    Variable lvl : nat -> nat.
    Hypothesis LAY : forall a m, layered lvl a (body (a, m)).

    Definition layered_place (a : nat) (w : place M V E St) : Prop :=
      match w with
      | Before p => layered lvl a p
      | AtYield cs k => (forall c, In c cs -> lvl (fst c) <= lvl a) /\ forall r, layered lvl a (k r)
      | AtAwait c k => lvl (fst c) < lvl a /\ forall o, layered lvl a (k o)
      | AtDelegate cs _ => forall c, In c cs -> lvl (fst c) <= lvl a
      | Finished _ => True
      end.
    Lemma follows_layered : forall l p a lg w, follows none cancelled l p lg w -> layered lvl a p -> layered_place a w.
    Proof.
      intros l p a lg w F L.
      assert (PO : forall x, layered_act lvl a x -> layered_place a (place_of none x)) by (intros x X; destruct x; cbn in *; auto).
      induction F as [|lg u next u' next' s F IH|lg u next u' next' s F IH|lg cs k is b r F IH A|lg c k i b v F IH A|lg c k i b e F IH A|lg cs f is b vs F IH A|lg cs f is b e F IH A]; auto.
      - apply PO. exact (proj1 (IH s)).
      - apply PO. exact (proj2 (IH s)).
      - apply IH.
      - apply IH.
      - apply IH.
      - exact I.
      - exact I.
    Qed.
    Lemma not_yet : forall s b is cs, made (tasks s) is cs -> results s b is = None ->
      exists i c ts lg, In i is /\ In c cs /\ nth_error (tasks s) i = Some (mkTask c ts lg) /\ forall o, ts <> Done o.
    Proof.
      intros s b is cs F. induction F as [|i c is cs (ts & lg & Q) F IH]; cbn [YieldModel.results]; intros N; [discriminate|].
      assert (D : (exists o, ts = Done o) \/ forall o, ts <> Done o) by (destruct ts; try (right; intros; discriminate); left; eauto).
      destruct D as [[o ->]|D].
      - assert (X : exists o', result_of s b i = Some o') by (unfold YieldModel.result_of; rewrite Q; destruct (left (marked s) i); eauto).
        destruct X as [o' X]. rewrite X in N.
        destruct (results s b is); [discriminate|]. destruct (IH eq_refl) as (j & c' & ts & lg' & A & B & C). exists j, c', ts, lg'. cbn. auto.
      - exists i, c, ts, lg. cbn. auto 6.
    Qed.

    Lemma progress : forall s, reach s -> forall n k t c ts lg, lvl (fst c) = n -> length (tasks s) - t = k ->
      nth_error (tasks s) t = Some (mkTask c ts lg) -> (forall o, ts <> Done o) -> exists e s', internal e /\ step s e = Some s'.
    Proof.
      intros s R. pose proof (J_reach _ R) as JJ. pose proof (placed_reach _ R) as PL.
      induction n as [n IHn] using lt_wf_ind. induction k as [k IHk] using lt_wf_ind. intros t c ts lg Ln Lk T ND.
      (* a task that awaits *)
      assert (AW : forall t c i k b lg, nth_error (tasks s) t = Some (mkTask c (Awaiting i k b) lg) -> lvl (fst c) = n -> exists e s', internal e /\ step s e = Some s').
      { intros t0 [a m] i k0 b lg0 T0 L0. pose proof (PL _ _ _ _ T0) as (c' & Fo & Ma). apply follows_layered with (a := a) in Fo; [|apply LAY].
        destruct Fo as [Lc _]. cbn [fst] in L0. destruct (results s b [i]) as [os|] eqn:O.
        - exists (Resume t0). cbn [YieldModel.step]. rewrite T0, O. cbn [YieldModel.results] in O.
          destruct (result_of s b i) as [o|]; try discriminate. injection O as <-. eexists. split; [exact I|reflexivity].
        - destruct (not_yet _ _ _ _ Ma O) as (j & cj & tsj & lgj & _ & [<-|[]] & Tj & Dj).
          refine (IHn (lvl (fst c')) _ (length (tasks s) - j) j c' tsj lgj eq_refl eq_refl Tj Dj). now rewrite <- L0. }
      assert (RUN : forall t c d lg, nth_error (tasks s) t = Some (mkTask c (Inside d) lg) -> exists e s', internal e /\ step s e = Some s').
      { intros t0 [a m] d lg0 T0. exists (Run t0). cbn [YieldModel.step]. rewrite T0. destruct d as [|[u f u' f']]; [eexists; split; [exact I|reflexivity]|].
        unfold segment. cbv zeta. destruct (f (mem s a)); eexists; (split; [exact I|reflexivity]). }
      assert (KID : forall b is cs os', made (tasks s) is cs -> (forall c', In c' cs -> lvl (fst c') <= n) -> (forall i, In i is -> t < i) ->
        results s b is = os' -> os' = None -> exists e s', internal e /\ step s e = Some s').
      { intros b is cs os' Ma Lc Later O ->. destruct (not_yet _ _ _ _ Ma O) as (j & cj & tsj & lgj & Ij & Ic & Tj & Dj).
        apply Lc in Ic. apply Later in Ij. pose proof (bound _ _ _ Tj) as Bj. destruct (Nat.eq_dec (lvl (fst cj)) n) as [E1|E1].
        - refine (IHk (length (tasks s) - j) _ j cj tsj lgj E1 eq_refl Tj Dj). lia.
        - refine (IHn (lvl (fst cj)) _ (length (tasks s) - j) j cj tsj lgj eq_refl eq_refl Tj Dj). lia. }
      destruct c as [a m]. cbn [fst] in Ln. destruct ts as [|d|d|i k0 b|is k0 b|is f b|o].
      - exists (Arrive t). cbn [YieldModel.step]. rewrite T. eexists. split; [exact I|reflexivity].
      - destruct (holder s a) as [h|] eqn:Ho.
        + apply (j_hold _ JJ) in Ho. destruct Ho as (m0 & ts0 & lg0 & Th & Hl). destruct ts0; try discriminate; [eauto|]. eapply AW; [exact Th|exact Ln].
        + assert (Iq : In t (queue s a)) by (apply (j_queue _ JJ); do 3 eexists; split; [exact T|reflexivity]).
          destruct (queue s a) as [|t1 q] eqn:Qu; [destruct Iq|].
          assert (Iq1 : In t1 (queue s a)) by (rewrite Qu; now left). apply (j_queue _ JJ) in Iq1. destruct Iq1 as (m1 & ts1 & lg1 & T1 & Q1).
          destruct ts1; try discriminate. exists (Grant a). cbn [YieldModel.step]. rewrite Ho, Qu, T1. eexists. split; [exact I|reflexivity].
      - eauto.
      - eapply AW; eauto.
      - pose proof (PL _ _ _ _ T) as (cs & Fo & Ma). apply follows_layered with (a := a) in Fo; [|apply LAY]. destruct Fo as [Lc _].
        destruct (results s b is) as [os|] eqn:O.
        + exists (Resume t). cbn [YieldModel.step]. rewrite T, O. eexists. split; [exact I|reflexivity].
        + eapply KID; eauto; [intros c' Ic; apply Lc in Ic; lia|]. intros i Ii. eapply kids_later; eauto.
      - pose proof (PL _ _ _ _ T) as (cs & Fo & Ma). apply follows_layered with (a := a) in Fo; [|apply LAY]. cbn in Fo.
        destruct (results s b is) as [os|] eqn:O.
        + exists (Resume t). cbn [YieldModel.step]. rewrite T, O. eexists. split; [exact I|reflexivity].
        + eapply KID; eauto; [intros c' Ic; apply Fo in Ic; lia|]. intros i Ii. eapply kids_later; eauto.
      - elim (ND o eq_refl).
    Qed.
  End Layers.

  (** ** Everything ends *)
  Definition W := (call * tstate)%type.
  Inductive R : W -> W -> Prop :=
  | R_arrive : forall c, R (c, Queued (start c)) (c, Sent)
  | R_grant : forall c d, R (c, Inside d) (c, Queued d)
  | R_make : forall c, R (c, Queued (Go (body c))) (c, Inside Make)
  | R_run : forall c u f u' f' x n ts kept cs, after n (f x) = (ts, kept, cs) -> R (c, ts) (c, Inside (Go (Seg u f u' f')))
  | R_child : forall c u f u' f' x n ts kept cs c', after n (f x) = (ts, kept, cs) -> In c' cs -> R (c', Sent) (c, Inside (Go (Seg u f u' f')))
  | R_stopped : forall c u f u' f' x n ts kept cs, after n (f' x) = (ts, kept, cs) -> R (c, ts) (c, Inside (Go (Seg u f u' f')))
  | R_child' : forall c u f u' f' x n ts kept cs c', after n (f' x) = (ts, kept, cs) -> In c' cs -> R (c', Sent) (c, Inside (Go (Seg u f u' f')))
  | R_await : forall c i k b o, R (c, Inside (Go (k o))) (c, Awaiting i k b)
  | R_yield : forall c is k b r, R (c, Queued (Go (k r))) (c, Yielded is k b)
  | R_delegate : forall c is f b o, R (c, Done o) (c, Delegated is f b)
  | R_drop : forall c o, R (c, Done o) (c, Sent)
  | R_leave : forall c d o, R (c, Done o) (c, Queued d)
  | R_interrupt : forall c ts ts', interrupt ts = Some ts' -> R (c, ts') (c, ts).

  Scheme ends_mut := Induction for ends Sort Prop
    with ends_prog_mut := Induction for ends_prog Sort Prop
    with ends_act_mut := Induction for ends_act Sort Prop.
  Combined Scheme ends_all from ends_mut, ends_prog_mut, ends_act_mut.

  Lemma Acc_done : forall c o, Acc R (c, Done o).
  Proof. intros c o. constructor. intros y Q. inversion Q; subst. discriminate. Qed.
  Lemma ends_Acc :
    (forall c, ends methods c -> Acc R (c, Sent)) /\
    (forall p, ends_prog methods p -> forall c, Acc R (c, Inside (Go p))) /\
    (forall a, ends_act methods a -> forall n ts kept cs, after n a = (ts, kept, cs) -> (forall c, Acc R (c, ts)) /\ forall c', In c' cs -> Acc R (c', Sent)).
  Proof.
    apply (ends_all M V E St methods (fun c _ => Acc R (c, Sent)) (fun p _ => forall c, Acc R (c, Inside (Go p)))
      (fun a _ => forall n ts kept cs, after n a = (ts, kept, cs) -> (forall c, Acc R (c, ts)) /\ forall c', In c' cs -> Acc R (c', Sent))).
    - intros c _ IH. assert (QG : forall d, Acc R (c, Inside d) -> Acc R (c, Queued d)).
      { intros d A. constructor. intros y Q. inversion Q; subst; auto using Acc_done. discriminate. }
      assert (Q1 : Acc R (c, Queued (Go (body c)))) by auto.
      assert (Q2 : Acc R (c, Inside Make)) by (constructor; intros y Q; inversion Q; subst; auto; discriminate).
      constructor. intros y Q. inversion Q; subst; auto using Acc_done; [|discriminate].
      unfold YieldModel.start, YieldModel.body in *. destruct (methods (fst c) (snd c)) eqn:Me; auto.
    - intros u next u' next' _ IH _ IH' c. constructor. intros y Q. inversion Q; subst; try discriminate;
        match goal with A : after _ (next _) = _ |- _ => apply (IH _ _ _ _ _ A) | A : after _ (next' _) = _ |- _ => apply (IH' _ _ _ _ _ A) end; auto.
    - intros v n ts kept cs Q. injection Q as <- <- <-. split; [intros; apply Acc_done|intros ? []].
    - intros n ts kept cs Q. injection Q as <- <- <-. split; [intros; apply Acc_done|intros ? []].
    - intros e n ts kept cs Q. injection Q as <- <- <-. split; [intros; apply Acc_done|intros ? []].
    - intros cs k _ IHc _ IHk n ts kept cs' Q. injection Q as <- <- <-. split; auto.
      intros c. assert (QG : forall r, Acc R (c, Queued (Go (k r)))).
      { intros r. constructor. intros y Q. inversion Q; subst; auto using Acc_done. discriminate. }
      assert (Y1 : forall is, Acc R (c, Yielded is k true)).
      { intros is. constructor. intros y Q. inversion Q; subst; auto. destruct is; discriminate. }
      constructor. intros y Q. inversion Q as [| | | | | | | | | | | |? ? ? It]; subst; auto. destruct (seq n (length cs)); [discriminate|]. injection It as <-. auto.
    - intros c k _ IHc _ IHk n ts kept cs' Q. injection Q as <- <- <-. split.
      + intros c0. assert (Y1 : forall i, Acc R (c0, Awaiting i k true)).
        { intros i. constructor. intros y Q. inversion Q; subst; auto. discriminate. }
        constructor. intros y Q. inversion Q as [| | | | | | | | | | | |? ? ? It]; subst; auto. injection It as <-. auto.
      + intros c' [<-|[]]. auto.
    - intros cs f _ IHc n ts kept cs' Q. injection Q as <- <- <-. split; auto.
      intros c. assert (Y1 : forall is, Acc R (c, Delegated is f true)).
      { intros is. constructor. intros y Q. inversion Q; subst; auto using Acc_done. destruct is; discriminate. }
      constructor. intros y Q. inversion Q as [| | | | | | | | | | | |? ? ? It]; subst; auto using Acc_done.
      destruct (seq n (length cs)); [discriminate|]. injection It as <-. auto.
  Qed.

  (** Replacing one element by smaller ones *)
  Definition less (l' l : list W) : Prop := exists l1 x l2 ys, l = l1 ++ x :: l2 /\ Permutation l' (l1 ++ ys ++ l2) /\ forall y, In y ys -> R y x.

  Lemma less_perm : forall l l0 l', Permutation l l0 -> less l' l -> less l' l0.
  Proof.
    intros l l0 l' P (l1 & x & l2 & ys & -> & P1 & Hy).
    assert (I : In x l0) by (apply (Permutation_in _ P); apply in_or_app; right; now left).
    apply in_split in I. destruct I as (m1 & m2 & ->). exists m1, x, m2, ys. split; auto. split; auto.
    apply Permutation_app_inv in P. eapply Permutation_trans; [exact P1|].
    eapply Permutation_trans; [apply Permutation_app_swap_app|]. eapply Permutation_trans; [|apply Permutation_app_swap_app].
    now apply Permutation_app_head.
  Qed.
  Lemma Acc_perm : forall l l0, Permutation l l0 -> Acc less l -> Acc less l0.
  Proof.
    intros l l0 P A. constructor. intros y Q. apply (Acc_inv A). eapply less_perm; [apply Permutation_sym, P|exact Q].
  Qed.
  Lemma Acc_less : forall l, (forall x, In x l -> Acc R x) -> Acc less l.
  Proof.
    assert (ADD : forall x, Acc R x -> forall l, Acc less l -> Acc less (x :: l)).
    { intros x Ax. induction Ax as [x _ IHx]. intros l Al. induction Al as [l Al IHl]. constructor.
      intros l' (l1 & z & l2 & ys & Q & P & Hy). destruct l1 as [|w l1]; cbn in Q; injection Q as <- Q.
      - subst l2. cbn in P. apply (Acc_perm (ys ++ l)); [now apply Permutation_sym|]. clear P l'.
        induction ys as [|y ys IHy]; cbn; [constructor; auto|]. apply IHx; [apply Hy; now left|]. apply IHy. intros y0 I0. apply Hy. now right.
      - cbn in P. apply (Acc_perm (x :: l1 ++ ys ++ l2)); [now apply Permutation_sym|]. apply IHl. exists l1, z, l2, ys. auto. }
    induction l as [|x l IH]; intros A.
    - constructor. intros l' (l1 & x & l2 & ys & Q & _). destruct l1; discriminate.
    - apply ADD; [apply A; now left|]. apply IH. intros y I. apply A. now right.
  Qed.

  Definition work (x : task) : W := (t_call x, t_state x).
  Lemma put_split : forall l t x, nth_error l t = Some x -> exists l1 l2, l = l1 ++ x :: l2 /\ forall y, put l t y = l1 ++ y :: l2.
  Proof.
    induction l as [|z l IH]; intros [|t] x Q; cbn in Q; try discriminate.
    - injection Q as ->. exists [], l. auto.
    - destruct (IH _ _ Q) as (l1 & l2 & -> & P). exists (z :: l1), l2. split; auto. intros y. cbn. now rewrite P.
  Qed.
  Lemma less_put : forall l t c ts lg ts' lg' cs, nth_error l t = Some (mkTask c ts lg) -> R (c, ts') (c, ts) ->
    (forall c', In c' cs -> R (c', Sent) (c, ts)) -> less (map work (put l t (mkTask c ts' lg') ++ new cs)) (map work l).
  Proof.
    intros l t c ts lg ts' lg' cs T R1 R2. destruct (put_split _ _ _ T) as (l1 & l2 & -> & P). rewrite P.
    exists (map work l1), (c, ts), (map work l2), ((c, ts') :: map (fun c' => (c', Sent)) cs). split; [now rewrite map_app|]. split.
    - rewrite !map_app. cbn [map work t_call t_state]. unfold YieldModel.new. rewrite map_map. cbn [work t_call t_state]. rewrite <- app_assoc.
      apply Permutation_app_head. cbn [app]. constructor. apply Permutation_app_comm.
    - intros y [<-|I]; auto. apply in_map_iff in I. destruct I as (c' & <- & I). auto.
  Qed.
  Lemma move_less : forall s s', move s s' -> less (map work (tasks s')) (map work (tasks s)).
  Proof.
    intros s s' Mv.
    destruct Mv as [t c l T|a t q c d l Ho Qu T|t a m l T|t a m p stopped u f l ts kept cs T P Af|t c i k b l o T O|t c is k b l os T O|t c is f b l os T O|t c l T D|t c d l T D|t c ts ts' l T D It];
      cbn [tasks]; (eapply less_put; [exact T| |try (intros ? []; fail)]); try (constructor; auto; fail).
    - destruct stopped; [destruct P as ((u0 & f0 & ->) & _); eapply R_stopped|destruct P as (u' & f' & ->); eapply R_run]; eauto.
    - intros c' I. destruct stopped; [destruct P as ((u0 & f0 & ->) & _); eapply R_child'|destruct P as (u' & f' & ->); eapply R_child]; eauto.
  Qed.
  Lemma finite : (forall c, ends methods c) -> forall s, reach s -> Acc (fun s2 s1 => move s1 s2) s.
  Proof.
    intros EN s Re. assert (A : forall x, In x (map work (tasks s)) -> Acc R x).
    { induction Re as [|s c0 Re IH|s s' Re IH Mv|s mk Re IH Fl].
      - intros x [].
      - cbn [tasks]. rewrite map_app. intros x I. apply in_app_iff in I. destruct I as [I|[<-|[]]]; auto. apply ends_Acc. auto.
      - destruct (move_less _ _ Mv) as (l1 & x & l2 & ys & Q & P & Hy). intros y I. apply (Permutation_in _ P) in I. rewrite !in_app_iff in I.
        assert (Ax : forall z, In z (l1 ++ x :: l2) -> Acc R z) by (rewrite <- Q; auto).
        destruct I as [I|[I|I]].
        + apply Ax. apply in_or_app. auto.
        + apply (Acc_inv (Ax x ltac:(apply in_or_app; right; now left))). auto.
        + apply Ax. apply in_or_app. right. now right.
      - exact IH. }
    apply Acc_less in A. remember (map work (tasks s)) as l eqn:L. revert s Re L. induction A as [l _ IH]. intros s Re ->.
    constructor. intros s' Mv. eapply IH; [apply move_less; exact Mv|eapply r_move; eauto|reflexivity].
  Qed.
End Proofs.
