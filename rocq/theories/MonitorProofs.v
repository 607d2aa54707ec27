(** Invariants of MonitorModel. *)
From Coq Require Import List Arith Bool Lia.
From Verif Require Import Base MonitorModel.
Import ListNotations.

Lemma member_In : forall a l, member a l = true <-> In a l.
Proof.
  intros. unfold member. rewrite existsb_exists. split.
  - intros (x & I & E). apply Nat.eqb_eq in E. now subst.
  - intros I. exists a. now rewrite Nat.eqb_refl.
Qed.

Definition todo_of (m : monitor) : dict nat :=
  match m with Round t | Starting _ _ t | Replaying _ _ t => t | _ => [] end.
Definition current (m : monitor) : option nat :=
  match m with Starting a _ _ | Replaying a _ _ => Some a | _ => None end.

Lemma split_app : forall A (tr out t1 t2 : list A) x, tr ++ out = t1 ++ x :: t2 ->
  (exists t2', t2 = t2' ++ out /\ tr = t1 ++ x :: t2') \/ (exists o1, out = o1 ++ x :: t2 /\ t1 = tr ++ o1).
Proof.
  intros A tr. induction tr as [|y tr IH]; intros out t1 t2 x E.
  - right. exists t1. auto.
  - destruct t1 as [|z t1]; cbn [app] in E; injection E as -> E.
    + left. exists tr. now subst.
    + apply IH in E. destruct E as [(t2' & -> & ->)|(o1 & -> & ->)].
      * left. exists t2'. auto.
      * right. exists o1. auto.
Qed.

Lemma popped_In : forall d a s e, In e (popped d a s) -> d = true /\ exists n, e = WaitReturned n /\ In (n, a) (waiters s).
Proof.
  intros [] a s e I; [|contradiction]. split; auto. unfold popped, woken in I.
  apply in_map_iff in I. destruct I as ([n b] & <- & I). apply filter_In in I. destruct I as [I E].
  apply Nat.eqb_eq in E. cbn [snd] in E. subst. exists n. auto.
Qed.
Lemma In_popped : forall a s n, In (n, a) (waiters s) -> In (WaitReturned n) (popped true a s).
Proof.
  intros. unfold popped, woken. apply in_map_iff. exists (n, a). split; auto.
  apply filter_In. split; auto. apply Nat.eqb_refl.
Qed.
Lemma pop_waiters : forall d a s n b, In (n, b) (waiters (pop_event d a s)) <->
  In (n, b) (waiters s) /\ (d = true -> b <> a).
Proof.
  intros [] a s n b; cbn [pop_event waiters].
  - rewrite filter_In. cbn [snd]. rewrite negb_true_iff, Nat.eqb_neq. tauto.
  - split; [intros; split; auto; discriminate|tauto].
Qed.
Lemma pop_waits : forall d a s b, In b (waits (pop_event d a s)) <-> In b (waits s) /\ (d = true -> b <> a).
Proof.
  intros [] a s b; cbn [pop_event waits].
  - rewrite filter_In. rewrite negb_true_iff, Nat.eqb_neq. tauto.
  - split; [intros; split; auto; discriminate|tauto].
Qed.
Lemma pop_same : forall d a s, auto (pop_event d a s) = auto s /\ mon (pop_event d a s) = mon s /\
  handles (pop_event d a s) = handles s /\ alive (pop_event d a s) = alive s /\
  next (pop_event d a s) = next s /\ calls (pop_event d a s) = calls s /\ used (pop_event d a s) = used s.
Proof. intros [] a s; cbn; auto 10. Qed.

Ltac unpop := repeat match goal with |- context [pop_event ?d ?a ?s] =>
    let P := fresh in destruct (pop_same d a s) as (? & ? & ? & ? & ? & ? & ?);
    progress (rewrite ?P) end.
Ltac sm := cbn [auto mon handles alive next waits waiters calls used set_mon set_alive attach detach
               todo_of current map fst snd] in *.

(** *** Processes and addresses *)
Record B (s : st) : Prop := {
  b_keys : NoDup (dkeys (handles s));
  b_todo : NoDup (dkeys (todo_of (mon s)));
  b_same : forall a p q, In (a, p) (todo_of (mon s)) -> dget (handles s) a = Some q -> p = q;
  b_cur : forall a, current (mon s) = Some a -> ~ In a (dkeys (todo_of (mon s)));
  b_used : forall a, In a (dkeys (handles s)) \/ In a (dkeys (todo_of (mon s))) \/ current (mon s) = Some a ->
    In a (used s);
  b_pids : forall a p, In (a, p) (handles s) \/ In (a, p) (todo_of (mon s)) -> p < next s;
  b_vals : forall a b p, dget (handles s) a = Some p -> dget (handles s) b = Some p -> a = b;
  b_fresh : forall p, next s <= p -> alive s p = Absent }.

Lemma combine_seq : forall (l : list nat) n,
  dkeys (combine l (seq n (length l))) = l /\
  forall a p, In (a, p) (combine l (seq n (length l))) -> n <= p < n + length l.
Proof.
  unfold dkeys. induction l as [|x l IH]; intros n; cbn [length seq combine map fst].
  - split; auto. intros ? ? [].
  - destruct (IH (S n)) as [E P]. split; [now rewrite E|].
    intros a p [X|X]; [injection X as <- <-; lia|]. apply P in X. lia.
Qed.
Lemma combine_inj : forall (l : list nat) n a b p,
  In (a, p) (combine l (seq n (length l))) -> In (b, p) (combine l (seq n (length l))) -> a = b.
Proof.
  induction l as [|x l IH]; intros n a b p; cbn [length seq combine In]; [tauto|].
  intros [X|X] [Y|Y].
  - congruence.
  - injection X as <- <-. apply (proj2 (combine_seq l (S n))) in Y. lia.
  - injection Y as <- <-. apply (proj2 (combine_seq l (S n))) in X. lia.
  - eapply IH; eauto.
Qed.

Lemma B_init : forall r addrs, NoDup addrs -> B (init r addrs).
Proof.
  intros r addrs N. destruct (combine_seq addrs 0) as [K P].
  assert (T : todo_of (mon (init r addrs)) = []) by (destruct addrs; reflexivity).
  assert (C : current (mon (init r addrs)) = None) by (destruct addrs; reflexivity).
  constructor; rewrite ?T, ?C; unfold init; sm; rewrite ?K; auto.
  - constructor.
  - intros ? ? ? [].
  - intros a [I|[[]|X]]; [auto|discriminate].
  - intros a p [I|[]]. apply P in I. lia.
  - intros a b p X Y. apply dget_In in X, Y. eapply combine_inj; eauto.
  - intros p L. destruct (Nat.ltb_spec p (length addrs)); [lia|reflexivity].
Qed.

Lemma in_dkeys : forall (d : dict nat) a p, In (a, p) d -> In a (dkeys d).
Proof. intros. unfold dkeys. change a with (fst (a, p)). now apply in_map. Qed.

Lemma In_dset : forall (d : dict nat) a p b q, In (b, q) (dset d a p) -> (b = a /\ q = p) \/ In (b, q) d.
Proof.
  induction d as [|[k v] d IH]; intros a p b q; cbn [dset In].
  - intros [E|[]]. injection E as <- <-. auto.
  - destruct (Nat.eqb_spec k a); cbn [In].
    + intros [E|I]; [injection E as <- <-; auto|auto].
    + intros [E|I]; [auto|]. apply IH in I. tauto.
Qed.
Lemma In_ddel : forall (d : dict nat) a b q, In (b, q) (ddel d a) -> In (b, q) d.
Proof.
  induction d as [|[k v] d IH]; intros a b q; cbn [ddel In]; auto.
  destruct (Nat.eqb k a); cbn [In]; [intros; right; eauto|]. intros [E|I]; [auto|right; eauto].
Qed.

Lemma B_attach : forall s a, B s -> ~ In a (dkeys (todo_of (mon s))) -> B (attach s a).
Proof.
  intros s a I N. constructor; sm.
  - now apply NoDup_dset, b_keys.
  - now apply b_todo.
  - intros b p q T G. rewrite dget_dset in G. destruct (Nat.eqb_spec a b).
    + subst. apply in_dkeys in T. contradiction.
    + eapply b_same; eauto.
  - now apply b_cur.
  - intros b [K|K].
    + apply dkeys_dset in K. destruct K as [->|K]; [now left|right]. apply (b_used s I). auto.
    + right. apply (b_used s I). auto.
  - intros b p [K|K].
    + apply In_dset in K. destruct K as [[_ ->]|K]; [lia|].
      assert (p < next s) by (eapply b_pids; eauto). lia.
    + assert (p < next s) by (eapply b_pids; eauto). lia.
  - intros b c p X Y. rewrite dget_dset in X, Y.
    destruct (Nat.eqb_spec a b), (Nat.eqb_spec a c); subst; auto.
    + injection X as <-. apply dget_In in Y. assert (next s < next s) by (eapply b_pids; eauto). lia.
    + injection Y as <-. apply dget_In in X. assert (next s < next s) by (eapply b_pids; eauto). lia.
    + eapply b_vals; eauto.
  - intros p L. unfold set_life. destruct (Nat.eqb_spec p (next s)); [lia|]. apply b_fresh; [auto|lia].
Qed.

Lemma B_mon : forall s m, B s -> (forall x, In x (todo_of m) -> In x (todo_of (mon s))) ->
  NoDup (dkeys (todo_of m)) ->
  (forall a, current m = Some a -> ~ In a (dkeys (todo_of m)) /\ In a (used s)) -> B (set_mon s m).
Proof.
  intros s m I S N C.
  assert (K : forall a, In a (dkeys (todo_of m)) -> In a (dkeys (todo_of (mon s)))).
  { intros a X. unfold dkeys in *. apply in_map_iff in X. destruct X as (x & <- & X). apply in_map. auto. }
  constructor; sm; auto.
  - now apply b_keys.
  - intros a p q T G. eapply b_same; eauto.
  - intros a X. now apply C.
  - intros a [X|[X|X]]; [apply (b_used s I); auto|apply (b_used s I); auto|now apply C].
  - intros a p [X|X]; eapply b_pids; eauto.
  - now apply b_vals.
  - now apply b_fresh.
Qed.
Lemma B_pop : forall s d a, B s -> B (pop_event d a s).
Proof. intros s [] a I; [|exact I]. destruct I. constructor; auto. Qed.
Lemma B_life : forall s p x, B s -> p < next s -> B (set_alive s (set_life (alive s) p x)).
Proof.
  intros s p x I L. destruct I. constructor; auto. sm. intros q Q. unfold set_life.
  destruct (Nat.eqb_spec q p); [lia|auto].
Qed.
Lemma lives : forall s p, B s -> alive s p <> Absent -> p < next s.
Proof. intros s p I A. destruct (Nat.lt_ge_cases p (next s)) as [|G]; auto. now apply (b_fresh s I) in G. Qed.

Lemma B_step : forall s out s', step s out s' -> B s -> B s'.
Proof.
  intros s out s' St I. destruct St.
  - apply B_life; auto. apply lives; auto. congruence.
  - apply B_life; auto. apply lives; auto. congruence.
  - apply B_attach; auto. intros X. apply H. apply (b_used s I). auto.
  - destruct I. constructor; sm; auto.
    + now apply NoDup_ddel.
    + intros b p' q T G. rewrite dget_ddel in G. destruct (a =? b); [discriminate|]. eauto.
    + intros b [X|X]; [|auto]. apply dkeys_ddel in X. apply b_used0. tauto.
    + intros b p' [X|X]; eauto. apply In_ddel in X. eauto.
    + intros b c p' X Y. rewrite dget_ddel in X, Y. destruct (a =? b); [discriminate|].
      destruct (a =? c); [discriminate|]. eauto.
  - unfold add_wait. destruct (auto s); destruct I; constructor; auto.
  - destruct I. constructor; sm; auto; try discriminate.
    + intros a p q T G. apply In_dget in T; auto. congruence.
    + intros a [X|[X|X]]; [auto|auto|discriminate].
    + intros a p X. apply (b_pids0 a). tauto.
  - pose proof (b_todo s I) as N. rewrite H in N. sm. unfold dkeys in N. cbn [map fst] in N. inversion N; subst.
    apply B_mon; [now apply B_pop| |assumption|discriminate].
    destruct (pop_same (member a (waits s)) a s) as (_ & -> & _). rewrite H. sm. cbn [In]. auto.
  - pose proof (b_todo s I) as N. rewrite H in N. sm. unfold dkeys in N. cbn [map fst] in N. inversion N; subst.
    apply B_mon; [now apply B_pop| |assumption|discriminate].
    destruct (pop_same (member a (waits s)) a s) as (_ & -> & _). rewrite H. sm. cbn [In]. auto.
  - pose proof (b_todo s I) as N. rewrite H in N. sm. unfold dkeys in N. cbn [map fst] in N. inversion N; subst.
    apply B_mon; auto; rewrite ?H; sm; cbn [In]; auto.
    intros b E. injection E as <-. split; auto.
    apply (b_used s I). right. left. rewrite H. unfold dkeys. cbn [todo_of map fst In]. auto.
  - pose proof (b_todo s I) as N. rewrite H in N. sm. unfold dkeys in N. cbn [map fst] in N. inversion N; subst.
    apply B_mon; auto; rewrite ?H; sm; cbn [In]; auto. discriminate.
  - pose proof (b_todo s I) as N. rewrite H in N. sm.
    apply B_mon; auto; rewrite ?H; sm; auto. discriminate.
  - pose proof (b_todo s I) as N. rewrite H in N. sm.
    assert (C : ~ In a (dkeys todo)).
    { pose proof (b_cur s I a) as C. rewrite H in C. now apply C. }
    apply B_mon.
    + apply B_attach; auto. now rewrite H.
    + sm. rewrite H. auto.
    + exact N.
    + intros b E. sm. injection E as <-. split; auto. now left.
  - pose proof (b_todo s I) as N. rewrite H in N. sm.
    apply B_mon; [now apply B_pop| |assumption|discriminate].
    destruct (pop_same d a s) as (_ & -> & _). rewrite H. sm. auto.
  - pose proof (b_todo s I) as N. rewrite H in N. sm.
    apply B_mon; auto; rewrite ?H; sm; auto. discriminate.
  - apply B_mon; auto; sm; [intros ? []|constructor|discriminate].
Qed.

(** *** Waiting calls *)
Record W (tr : list event) (s : st) : Prop := {
  w_small : forall n a, In (n, a) (waiters s) -> n < calls s;
  w_event : forall n a, In (n, a) (waiters s) -> In a (waits s);
  w_called : forall n a k, In (WaitCalled n a k) tr -> n < calls s;
  w_from : forall n a, In (n, a) (waiters s) -> exists k, In (WaitCalled n a k) tr;
  w_once : forall n a k a' k', In (WaitCalled n a k) tr -> In (WaitCalled n a' k') tr -> a = a' /\ k = k';
  w_ret : forall n, In (WaitReturned n) tr -> n < calls s /\ ~ In n (map fst (waiters s));
  w_done : auto s = true -> forall n a k, In (WaitCalled n a k) tr ->
    In (WaitReturned n) tr \/ In (n, a) (waiters s);
  w_nodup : NoDup (map fst (waiters s)) }.

Lemma NoDup_filter_fst : forall (f : nat * nat -> bool) l, NoDup (map fst l) -> NoDup (map fst (filter f l)).
Proof.
  induction l as [|x l IH]; cbn [map filter]; auto. intros N. inversion N; subst.
  destruct (f x); cbn [map]; auto. constructor; auto. intros I. apply H1.
  apply in_map_iff in I. destruct I as (y & <- & I). apply filter_In in I. apply in_map. tauto.
Qed.

Lemma NoDup_unique : forall (l : list (nat * nat)) n a b, NoDup (map fst l) -> In (n, a) l -> In (n, b) l -> a = b.
Proof.
  induction l as [|[m c] l IH]; intros n a b N X Y; [contradiction|].
  cbn [map fst] in N. inversion N as [|? ? N1 N2]; subst.
  assert (K : forall d, In (n, d) l -> In n (map fst l)) by (intros d I; change n with (fst (n, d)); now apply in_map).
  destruct X as [X|X], Y as [Y|Y].
  - congruence.
  - injection X as -> ->. elim N1. eauto.
  - injection Y as -> ->. elim N1. eauto.
  - eauto.
Qed.

Definition quiet (e : event) : Prop := match e with WaitCalled _ _ _ | WaitReturned _ => False | _ => True end.
Definition unanswered (out : list event) : Prop := forall e, In e out -> quiet e.

Lemma W_quiet : forall tr out s s', W tr s -> unanswered out ->
  waiters s' = waiters s -> waits s' = waits s -> calls s' = calls s -> auto s' = auto s -> W (tr ++ out) s'.
Proof.
  intros tr out s s' I Q E1 E2 E3 E4. destruct I.
  constructor; rewrite ?E1, ?E2, ?E3, ?E4; auto.
  - intros n a k X. apply in_app_iff in X. destruct X as [X|X]; [eauto|]. apply Q in X. contradiction.
  - intros n a X. destruct (w_from0 _ _ X) as [k Y]. exists k. apply in_or_app. auto.
  - intros n a k a' k' X Y. apply in_app_iff in X, Y.
    destruct X as [X|X]; [|apply Q in X; contradiction]. destruct Y as [Y|Y]; [|apply Q in Y; contradiction]. eauto.
  - intros n X. apply in_app_iff in X. destruct X as [X|X]; [|apply Q in X; contradiction]. auto.
  - intros A n a k X. apply in_app_iff in X. destruct X as [X|X]; [|apply Q in X; contradiction].
    destruct (w_done0 A _ _ _ X); [left; apply in_or_app; auto|auto].
Qed.

Lemma W_pop : forall tr s d a m, W tr s -> W (tr ++ popped d a s) (set_mon (pop_event d a s) m).
Proof.
  intros tr s [] a m I.
  - assert (NC : forall n b k, In (WaitCalled n b k) (tr ++ popped true a s) -> In (WaitCalled n b k) tr).
    { intros n b k X. apply in_app_iff in X. destruct X as [X|X]; auto.
      apply popped_In in X. destruct X as (_ & x & E & _). discriminate. }
    pose proof (fun n b => pop_waiters true a s n b) as PW.
    destruct I. constructor; sm.
    + intros n b X. apply PW in X. destruct X as [X _]. eauto.
    + intros n b X. apply PW in X. destruct X as [X Y]. apply pop_waits. split; eauto.
    + intros n b k X. apply NC in X. eauto.
    + intros n b X. apply PW in X. destruct X as [X _]. destruct (w_from0 _ _ X) as [k Y].
      exists k. apply in_or_app. auto.
    + intros n b k b' k' X Y. apply NC in X, Y. eauto.
    + intros n X. apply in_app_iff in X. destruct X as [X|X].
      * destruct (w_ret0 n X) as [L N]. split; auto. intros Y. apply N.
        apply in_map_iff in Y. destruct Y as ([n' b] & <- & Y). apply PW in Y. destruct Y as [Y _].
        cbn [fst]. change n' with (fst (n', b)). now apply in_map.
      * apply popped_In in X. destruct X as (_ & n' & E & X). injection E as <-. split; [eauto|].
        intros Y. apply in_map_iff in Y. destruct Y as ([n' b] & E & Y). cbn [fst] in E. subst n'.
        apply PW in Y. destruct Y as [Y Z]. apply (Z eq_refl). eapply NoDup_unique; eauto.
    + intros A n b k X. apply NC in X. destruct (w_done0 A _ _ _ X) as [Y|Y].
      * left. apply in_or_app. auto.
      * destruct (Nat.eq_dec b a) as [->|N].
        -- left. apply in_or_app. right. now apply In_popped.
        -- right. apply PW. auto.
    + now apply NoDup_filter_fst.
  - cbn [popped pop_event]. eapply W_quiet; eauto. intros e [].
Qed.

Lemma W_step : forall tr s out s', step s out s' -> W tr s -> W (tr ++ out) s'.
Proof.
  intros tr s out s' St I. destruct St;
    try (eapply W_quiet; eauto; intros e X; cbn [In] in X;
         repeat (destruct X as [<-|X]; [exact Logic.I|]); contradiction).
  - (* wait *)
    unfold add_wait. destruct I. destruct (auto s) eqn:A.
    + constructor; sm.
      * intros n b X. apply in_app_iff in X. destruct X as [X|[X|[]]]; [apply w_small0 in X; lia|].
        injection X as <- <-. lia.
      * intros n b X. destruct (member a (waits s)) eqn:M; apply in_app_iff in X; destruct X as [X|[X|[]]]; eauto.
        -- injection X as <- <-. now apply member_In.
        -- right. eauto.
        -- injection X as <- <-. now left.
      * intros n b k X. apply in_app_iff in X. destruct X as [X|[X|[]]]; [apply w_called0 in X; lia|].
        injection X as <- <- <-. lia.
      * intros n b X. apply in_app_iff in X. destruct X as [X|[X|[]]].
        -- destruct (w_from0 _ _ X) as [k Y]. exists k. apply in_or_app. auto.
        -- injection X as <- <-. eexists. apply in_or_app. right. now left.
      * intros n b k b' k' X Y. apply in_app_iff in X, Y.
        destruct X as [X|[X|[]]]; destruct Y as [Y|[Y|[]]]; eauto.
        -- injection Y as <- <- <-. apply w_called0 in X. lia.
        -- injection X as <- <- <-. apply w_called0 in Y. lia.
        -- split; congruence.
      * intros n X. apply in_app_iff in X. destruct X as [X|[X|[]]]; [|discriminate].
        destruct (w_ret0 n X) as [L N]. split; [lia|]. rewrite map_app, in_app_iff. cbn [map fst In].
        intros [Y|[Y|[]]]; [auto|lia].
      * intros _ n b k X. apply in_app_iff in X. destruct X as [X|[X|[]]].
        -- destruct (w_done0 eq_refl _ _ _ X); [left|right]; apply in_or_app; auto.
        -- injection X as <- <- <-. right. apply in_or_app. right. now left.
      * rewrite map_app. cbn [map fst]. apply NoDup_rev in w_nodup0.
        rewrite <- (rev_involutive (map fst (waiters s) ++ [calls s])), rev_app_distr.
        apply NoDup_rev. cbn [rev app]. constructor; auto. rewrite <- in_rev. intros X.
        apply in_map_iff in X. destruct X as ([n b] & E & X). cbn [fst] in E. apply w_small0 in X. lia.
    + constructor; sm.
      * intros n b X. apply w_small0 in X. lia.
      * eauto.
      * intros n b k X. apply in_app_iff in X. destruct X as [X|[X|[X|[]]]]; [apply w_called0 in X; lia| |discriminate].
        injection X as <- <- <-. lia.
      * intros n b X. destruct (w_from0 _ _ X) as [k Y]. exists k. apply in_or_app. auto.
      * intros n b k b' k' X Y. apply in_app_iff in X, Y.
        destruct X as [X|[X|[X|[]]]]; destruct Y as [Y|[Y|[Y|[]]]]; try discriminate; eauto.
        -- injection Y as <- <- <-. apply w_called0 in X. lia.
        -- injection X as <- <- <-. apply w_called0 in Y. lia.
        -- split; congruence.
      * intros n X. apply in_app_iff in X. destruct X as [X|[X|[X|[]]]]; [|discriminate|].
        -- destruct (w_ret0 n X) as [L N]. split; [lia|auto].
        -- injection X as <-. split; [lia|]. intros Y.
           apply in_map_iff in Y. destruct Y as ([n b] & E & Y). cbn [fst] in E. apply w_small0 in Y. lia.
      * discriminate.
      * auto.
  - now apply W_pop.
  - replace (tr ++ Down a p :: popped (member a (waits s)) a s)
      with ((tr ++ [Down a p]) ++ popped (member a (waits s)) a s) by (now rewrite <- app_assoc).
    apply W_pop. eapply W_quiet; eauto. intros e [<-|[]]. exact Logic.I.
  - replace (tr ++ Recovered a :: popped d a s)
      with ((tr ++ [Recovered a]) ++ popped d a s) by (now rewrite <- app_assoc).
    apply W_pop. eapply W_quiet; eauto. intros e [<-|[]]. exact Logic.I.
Qed.

Lemma W_init : forall r addrs, W [] (init r addrs).
Proof. intros. constructor; cbn; try (intros; contradiction); auto. constructor. Qed.

Lemma run_BW : forall r addrs tr s, run r addrs tr s -> B s /\ W tr s /\ auto s = r.
Proof.
  induction 1 as [N|tr s out s' R (IB & IW & IA) St].
  - split; [now apply B_init|]. split; [apply W_init|reflexivity].
  - split; [eapply B_step; eauto|]. split; [eapply W_step; eauto|].
    rewrite <- IA. destruct St; sm; unfold add_wait; try (destruct (auto s) eqn:?; sm; congruence); auto;
      match goal with |- auto (pop_event ?d ?a ?s) = _ => apply (pop_same d a s) end.
Qed.

Lemma known_stays : forall s out s' p, step s out s' -> B s -> alive s p = Known -> alive s' p = Known.
Proof.
  intros s out s' p St I K. destruct St; sm; auto;
    try (unfold set_life; destruct (Nat.eqb_spec p p0); [congruence|assumption]);
    try (destruct (pop_same (member a (waits s)) a s) as (_ & _ & _ & -> & _); assumption);
    try (destruct (pop_same d a s) as (_ & _ & _ & -> & _); assumption).
  - unfold set_life. destruct (Nat.eqb_spec p (next s)); auto. subst p. rewrite (b_fresh s I) in K by lia. discriminate.
  - unfold add_wait. destruct (auto s); assumption.
  - unfold set_life. destruct (Nat.eqb_spec p (next s)); auto. subst p. rewrite (b_fresh s I) in K by lia. discriminate.
Qed.

(** *** A wait for a dead pool lasts until a new process is up *)
Definition no_ready (a : nat) (t : list event) : Prop := forall p, ~ In (Ready a p) t.
Definition J (s : st) (a : nat) : Prop :=
  (forall p, dget (handles s) a = Some p -> alive s p = Known) /\
  (forall p, In (a, p) (todo_of (mon s)) -> alive s p = Known) /\
  (forall d t, mon s <> Replaying a d t).

Lemma J_step : forall s out s' a, step s out s' -> B s -> auto s = true -> J s a -> no_ready a out ->
  J s' a /\ forall n, In (WaitReturned n) out -> exists b, b <> a /\ In (n, b) (waiters s).
Proof.
  intros s out s' a St I A (J1 & J2 & J3) NR.
  assert (KS : forall p, alive s p = Known -> alive s' p = Known) by (intros; eapply known_stays; eauto).
  destruct St.
  - split; [|intros n [X|[]]; discriminate]. split; [|split]; sm; auto.
  - split; [|intros n [X|[]]; discriminate]. split; [|split]; sm; auto.
  - assert (Na : a0 <> a). { intros ->. apply (NR (next s)). now left. }
    split; [|intros n [X|[]]; discriminate]. split; [|split]; sm; auto.
    intros p G. rewrite dget_dset in G. destruct (Nat.eqb_spec a0 a); [contradiction|]. auto.
  - split; [|intros n [X|[]]; discriminate]. split; [|split]; sm; auto.
    intros p' G. rewrite dget_ddel in G. destruct (a0 =? a); [discriminate|]. auto.
  - split.
    + unfold add_wait in *. rewrite A in *. split; [|split]; sm; auto.
    + rewrite A. intros n [X|[]]. discriminate.
  - split; [|intros n []]. split; [|split]; sm; auto; [|discriminate].
    intros p X. apply J1. apply In_dget; auto. apply b_keys; auto.
  - assert (Na : a0 <> a). { intros ->. apply H0. apply J2. rewrite H. now left. }
    destruct (pop_same (member a0 (waits s)) a0 s) as (E1 & E2 & E3 & E4 & _).
    split.
    + split; [|split]; sm; rewrite ?E3, ?E4 in *; auto; [|discriminate].
      intros p' X. apply KS. apply J2. rewrite H. now right.
    + intros n X. apply popped_In in X. destruct X as (_ & n' & E & X). injection E as <-. exists a0. auto.
  - congruence.
  - split; [|intros n [X|[]]; discriminate]. rewrite H in J2. split; [|split]; sm; auto; [|discriminate].
    intros p' X. apply J2. now right.
  - split; [|intros n [X|[X|[]]]; discriminate]. rewrite H in J2. split; [|split]; sm; auto; [|discriminate].
    intros p' X. apply J2. now right.
  - split; [|intros n [X|[]]; discriminate]. rewrite H in J2. split; [|split]; sm; auto; discriminate.
  - assert (Na : a0 <> a). { intros ->. apply (NR (next s)). now left. }
    split; [|intros n [X|[]]; discriminate]. rewrite H in J2. split; [|split]; sm; auto.
    + intros p G. rewrite dget_dset in G. destruct (Nat.eqb_spec a0 a); [contradiction|]. auto.
    + intros d' t X. injection X as X _ _. auto.
  - assert (Na : a0 <> a). { intros ->. apply (J3 d todo). assumption. }
    destruct (pop_same d a0 s) as (E1 & E2 & E3 & E4 & _). rewrite H in J2.
    split.
    + split; [|split]; sm; rewrite ?E3, ?E4 in *; auto; discriminate.
    + intros n [X|X]; [discriminate|].
      apply popped_In in X. destruct X as (_ & n' & E & X). injection E as <-. exists a0. auto.
  - split; [|intros n [X|[]]; discriminate]. rewrite H in J2. split; [|split]; sm; auto; discriminate.
  - split; [|intros n [X|[]]; discriminate]. split; [|split]; sm; auto; [intros ? []|discriminate].
Qed.

Lemma wait_J : forall addrs tr s, run true addrs tr s -> forall t1 n a t2,
  tr = t1 ++ WaitCalled n a true :: t2 -> no_ready a t2 -> J s a /\ ~ In (WaitReturned n) t2.
Proof.
  intros addrs tr s R. remember true as r eqn:Er.
  induction R as [N|tr s out s' R IH St]; intros t1 n a t2 E NR.
  - destruct t1; discriminate.
  - destruct (run_BW _ _ _ _ R) as (IB & IW & IA). subst r.
    apply split_app in E. destruct E as [(t2' & -> & E)|(o1 & E & ->)].
    + assert (NR' : no_ready a t2' /\ no_ready a out).
      { split; intros p X; apply (NR p), in_or_app; auto. }
      destruct NR' as [NR1 NR2].
      destruct (IH _ _ _ _ E NR1) as [Js Nn].
      destruct (J_step _ _ _ a St IB IA Js NR2) as [Js' Out]. split; [exact Js'|].
      intros X. apply in_app_iff in X. destruct X as [X|X]; [auto|].
      assert (C : In (WaitCalled n a true) tr) by (rewrite E; apply in_or_app; right; now left).
      destruct (Out n X) as (b & Nb & Y).
      destruct (w_from _ _ IW _ _ Y) as [k Ck].
      destruct (w_once _ _ IW _ _ _ _ _ Ck C) as [-> _]. contradiction.
    + destruct St; try (destruct o1 as [|e1 [|e2 o1]]; cbn [app] in E; try discriminate E;
        injection E; intros; try discriminate; destruct o1; discriminate).
      * (* wait *)
        rewrite IA in E. destruct o1 as [|e o1]; [|destruct o1; discriminate E].
        cbn [app] in E. injection E as <- -> K <-. split; [|intros []].
        unfold known_dead in K. destruct (dget (handles s) a) as [p|] eqn:G; [|discriminate].
        apply andb_true_iff in K. destruct K as [K1 K2].
        assert (Kp : alive s p = Known) by (destruct (alive s p); try discriminate; reflexivity).
        unfold add_wait. rewrite IA. split; [|split]; sm.
        -- intros q X. congruence.
        -- intros q X. rewrite (b_same s IB _ _ _ X G). exact Kp.
        -- intros d t X. rewrite X in K2. now rewrite Nat.eqb_refl in K2.
      * exfalso. assert (X : In (WaitCalled n a true) (popped (member a0 (waits s)) a0 s))
          by (rewrite E; apply in_or_app; right; now left).
        apply popped_In in X. destruct X as (_ & ? & X & _). discriminate.
      * exfalso. congruence.
      * exfalso. assert (X : In (WaitCalled n a true) (Recovered a0 :: popped d a0 s))
          by (rewrite E; apply in_or_app; right; now left).
        destruct X as [X|X]; [discriminate|]. apply popped_In in X. destruct X as (_ & ? & X & _). discriminate.
Qed.

Lemma wait_sound : forall addrs tr s, run true addrs tr s -> forall t1 n a t2 t3,
  tr = t1 ++ WaitCalled n a true :: t2 ++ WaitReturned n :: t3 -> exists p, In (Ready a p) t2.
Proof.
  intros addrs tr s R. remember true as r eqn:Er.
  induction R as [N|tr s out s' R IH St]; intros t1 n a t2 t3 E.
  - destruct t1; discriminate.
  - destruct (run_BW _ _ _ _ R) as (IB & IW & IA). subst r.
    assert (E0 := E). rewrite app_comm_cons, app_assoc in E0.
    apply split_app in E0. destruct E0 as [(t3' & -> & E0)|(o1 & Eo & E0)].
    + rewrite <- app_assoc in E0. cbn [app] in E0. eapply IH; eauto.
    + symmetry in E0. apply split_app in E0.
      destruct E0 as [(t2' & -> & E0)|(o0 & Eo1 & _)].
      * (* called before this step *)
        destruct (existsb (fun e => match e with Ready b _ => b =? a | _ => false end) (t2' ++ o1)) eqn:X.
        -- apply existsb_exists in X. destruct X as ([b p| | | | | | | | | |] & X & Y); try discriminate.
           apply Nat.eqb_eq in Y. subst b. now exists p.
        -- exfalso.
           assert (NR : no_ready a (t2' ++ o1)).
           { intros p Y. assert (existsb (fun e => match e with Ready b _ => b =? a | _ => false end) (t2' ++ o1) = true).
             { apply existsb_exists. exists (Ready a p). split; auto. apply Nat.eqb_refl. }
             congruence. }
           assert (NR1 : no_ready a t2') by (intros p Y; apply (NR p), in_or_app; auto).
           destruct (wait_J _ _ _ R _ _ _ _ E0 NR1) as [Js _].
           assert (Cn : In (WaitCalled n a true) tr) by (rewrite E0; apply in_or_app; right; now left).
           assert (NR2 : no_ready a out).
           { intros p Y. destruct St; cbn [In] in Y; rewrite ?IA in Y;
               try (repeat (destruct Y as [Y|Y]; [discriminate Y|]); contradiction).
             - destruct o1 as [|e o1]; cbn [app] in Eo; [discriminate|destruct o1; discriminate].
             - apply popped_In in Y. destruct Y as (_ & ? & Y & _). discriminate.
             - destruct Y as [Y|Y]; [discriminate|]. apply popped_In in Y. destruct Y as (_ & ? & Y & _). discriminate.
             - destruct o1 as [|e o1]; cbn [app] in Eo; [discriminate|destruct o1; discriminate].
             - destruct Y as [Y|Y]; [discriminate|]. apply popped_In in Y. destruct Y as (_ & ? & Y & _). discriminate. }
           destruct (J_step _ _ _ a St IB IA Js NR2) as [_ Out].
           destruct (Out n) as (b & Nb & Y); [rewrite Eo; apply in_or_app; right; now left|].
           destruct (w_from _ _ IW _ _ Y) as [k Ck].
           destruct (w_once _ _ IW _ _ _ _ _ Ck Cn) as [-> _]. contradiction.
      * (* called and returned in one step: only without recovery *)
        exfalso. subst o1. assert (X : In (WaitCalled n a true) out) by (rewrite Eo, !in_app_iff; cbn [In]; auto).
        assert (Y : In (WaitReturned n) out) by (rewrite Eo, !in_app_iff; cbn [In]; auto).
        clear - IA X Y St. destruct St; cbn [In] in X; rewrite ?IA in *;
          try (repeat (destruct X as [X|X]; [discriminate X|]); contradiction).
        -- destruct Y as [Y|[]]. discriminate.
        -- apply popped_In in X. destruct X as (_ & ? & X & _). discriminate.
        -- destruct X as [X|X]; [discriminate|]. apply popped_In in X. destruct X as (_ & ? & X & _). discriminate.
        -- destruct X as [X|X]; [discriminate|]. apply popped_In in X. destruct X as (_ & ? & X & _). discriminate.
Qed.

(** *** A wait returns within two rounds *)
Definition is_done (e : event) : bool := match e with RoundDone => true | _ => false end.
Definition rounds (t : list event) : nat := length (filter is_done t).
Lemma rounds_app : forall t t', rounds (t ++ t') = rounds t + rounds t'.
Proof. intros. unfold rounds. now rewrite filter_app, app_length. Qed.
Lemma rounds_popped : forall d a s, rounds (popped d a s) = 0.
Proof.
  intros. unfold rounds. destruct (filter is_done (popped d a s)) as [|e l] eqn:E; auto.
  assert (X : In e (filter is_done (popped d a s))) by (rewrite E; now left).
  apply filter_In in X. destruct X as [X Y]. apply popped_In in X. destruct X as (_ & n & -> & _). discriminate.
Qed.

Definition is_sub_pool (addrs : list nat) (tr : list event) (a : nat) : Prop :=
  (In a addrs \/ exists p, In (Ready a p) tr) /\ ~ In (Removed a) tr.

Lemma attached : forall r addrs tr s a, run r addrs tr s -> is_sub_pool addrs tr a ->
  In a (dkeys (handles s)).
Proof.
  intros r addrs tr s a R. induction R as [N|tr s out s' R IH St]; intros [P NR].
  - destruct P as [P|[p []]]. unfold init. sm. now rewrite (proj1 (combine_seq addrs 0)).
  - assert (NR1 : ~ In (Removed a) tr) by (intros X; apply NR, in_or_app; auto).
    assert (NR2 : ~ In (Removed a) out) by (intros X; apply NR, in_or_app; auto).
    assert (P' : In a (dkeys (handles s)) \/ exists p, In (Ready a p) out).
    { destruct P as [P|[p P]]; [left; apply IH; split; auto|].
      apply in_app_iff in P. destruct P as [P|P]; [left; apply IH; split; eauto|eauto]. }
    clear P NR IH. destruct St; sm.
    all: try (destruct P' as [P'|[q P']]; [exact P'|cbn [In] in P';
              repeat (destruct P' as [P'|P']; [discriminate|]); contradiction]).
    + apply dkeys_dset. destruct P' as [P'|[q [P'|[]]]]; [auto|]. injection P' as <- _. auto.
    + apply dkeys_ddel. destruct P' as [P'|[q [P'|[]]]]; [|discriminate]. split; auto.
      intros ->. apply NR2. now left.
    + assert (E : handles (add_wait s a0) = handles s) by (unfold add_wait; now destruct (auto s)).
      rewrite E. destruct P' as [P'|[q [P'|P']]]; [auto|discriminate|].
      destruct (auto s); [contradiction|]. destruct P' as [P'|[]]. discriminate.
    + destruct (pop_same (member a0 (waits s)) a0 s) as (_ & _ & -> & _).
      destruct P' as [P'|[q P']]; auto. apply popped_In in P'. destruct P' as (_ & ? & P' & _). discriminate.
    + destruct (pop_same (member a0 (waits s)) a0 s) as (_ & _ & -> & _).
      destruct P' as [P'|[q [P'|P']]]; auto; [discriminate|].
      apply popped_In in P'. destruct P' as (_ & ? & P' & _). discriminate.
    + apply dkeys_dset. destruct P' as [P'|[q [P'|[]]]]; [auto|]. injection P' as <- _. auto.
    + destruct (pop_same d a0 s) as (_ & _ & -> & _).
      destruct P' as [P'|[q [P'|P']]]; auto; [discriminate|].
      apply popped_In in P'. destruct P' as (_ & ? & P' & _). discriminate.
Qed.

Definition wait_pending (a : nat) (m : monitor) : Prop :=
  match m with
  | Off => False
  | Sleeping => True
  | Round t => In a (dkeys t)
  | Starting b d t | Replaying b d t => In a (dkeys t) \/ (b = a /\ d = true)
  end.
Definition failed (a : nat) (t : list event) : Prop := In (StartFailed a) t \/ In (ReplayFailed a) t.

Definition K (s : st) (n a : nat) (t2 : list event) : Prop :=
  In (WaitReturned n) t2 \/
  (In (n, a) (waiters s) /\ (rounds t2 = 0 \/ (rounds t2 = 1 /\ wait_pending a (mon s)))).

Lemma waiter_kept : forall d b s n a m, In (n, a) (waiters s) -> b <> a ->
  In (n, a) (waiters (set_mon (pop_event d b s) m)).
Proof. intros. sm. apply pop_waiters. auto. Qed.

Lemma K_step : forall s out s' n a t2, step s out s' -> auto s = true ->
  (In (n, a) (waiters s) -> In a (waits s)) -> In a (dkeys (handles s)) ->
  K s n a t2 -> ~ failed a out -> K s' n a (t2 ++ out).
Proof.
  intros s out s' n a t2 St A Ev Hd Ks NF.
  destruct Ks as [Ks|[Wt Ks]]; [left; apply in_or_app; auto|].
  specialize (Ev Wt). assert (M := proj2 (member_In a (waits s)) Ev).
  assert (Q : rounds out = 0 -> In (n, a) (waiters s') ->
              (wait_pending a (mon s) -> wait_pending a (mon s')) -> K s' n a (t2 ++ out)).
  { intros R W' P. right. split; auto. rewrite rounds_app, R, Nat.add_0_r.
    destruct Ks as [Ks|[Ks Pk]]; auto. }
  destruct St.
  - apply Q; sm; auto.
  - apply Q; sm; auto.
  - apply Q; sm; auto.
  - apply Q; sm; auto.
  - apply Q.
    + now rewrite A.
    + unfold add_wait. rewrite A. sm. apply in_or_app. auto.
    + unfold add_wait. rewrite A. auto.
  - apply Q; sm; auto.
  - destruct (Nat.eq_dec a0 a) as [->|Na].
    + left. apply in_or_app. right. rewrite M. now apply In_popped.
    + apply Q; [apply rounds_popped|now apply waiter_kept|]. rewrite H. sm. cbn [wait_pending dkeys map fst In].
      intros [X|X]; [contradiction|auto].
  - congruence.
  - destruct (Nat.eq_dec a0 a) as [->|Na].
    + apply Q; sm; auto; cbn [wait_pending]. rewrite M. auto.
    + apply Q; sm; auto. rewrite H. sm. cbn [wait_pending dkeys map fst In]. intros [X|X]; [contradiction|auto].
  - destruct (Nat.eq_dec a0 a) as [->|Na].
    + exfalso. apply NF. left. right. now left.
    + apply Q; sm; auto. rewrite H. sm. cbn [wait_pending dkeys map fst In]. intros [X|X]; [contradiction|auto].
  - assert (Na : a0 <> a) by (intros ->; apply NF; left; now left).
    apply Q; sm; auto. rewrite H. sm. cbn [wait_pending]. intros [X|[X _]]; [auto|contradiction].
  - apply Q; sm; auto. rewrite H. auto.
  - destruct d.
    + destruct (Nat.eq_dec a0 a) as [->|Na].
      * left. apply in_or_app. right. right. now apply In_popped.
      * apply Q; [unfold rounds; cbn [filter is_done]; apply rounds_popped|now apply waiter_kept|].
        rewrite H. sm. cbn [wait_pending]. intros [X|[X _]]; [auto|contradiction].
    + apply Q; [reflexivity|sm; auto|]. rewrite H. sm. cbn [wait_pending]. intros [X|[_ X]]; [auto|discriminate].
  - assert (Na : a0 <> a) by (intros ->; apply NF; right; now left).
    apply Q; sm; auto. rewrite H. sm. cbn [wait_pending]. intros [X|[X _]]; [auto|contradiction].
  - right. sm. split; auto. right. rewrite rounds_app. unfold rounds at 2. cbn [filter is_done length].
    destruct Ks as [Ks|[_ Pk]]; [split; [lia|exact Logic.I]|]. rewrite H in Pk. contradiction.
Qed.

Lemma wait_two_rounds : forall addrs tr s, run true addrs tr s -> forall t1 n a k t2,
  tr = t1 ++ WaitCalled n a k :: t2 -> is_sub_pool addrs t1 a -> ~ In (Removed a) t2 -> ~ failed a t2 ->
  K s n a t2.
Proof.
  intros addrs tr s R. remember true as r eqn:Er.
  induction R as [N|tr s out s' R IH St]; intros t1 n a k t2 E P NR NF.
  - destruct t1; discriminate.
  - destruct (run_BW _ _ _ _ R) as (IB & IW & IA). subst r.
    pose proof E as E0. apply split_app in E. destruct E as [(t2' & -> & E)|(o1 & E & ->)].
    + assert (NR1 : ~ In (Removed a) t2') by (intros X; apply NR, in_or_app; auto).
      assert (NF1 : ~ failed a t2') by (intros [X|X]; apply NF; [left|right]; apply in_or_app; auto).
      assert (NF2 : ~ failed a out) by (intros [X|X]; apply NF; [left|right]; apply in_or_app; auto).
      eapply K_step; eauto.
      * intros X. eapply w_event; eauto.
      * eapply attached; eauto. destruct P as [P1 P2]. split.
        -- destruct P1 as [P1|[p P1]]; [auto|]. right. exists p. rewrite E. apply in_or_app. auto.
        -- rewrite E. rewrite in_app_iff. cbn [In]. intros [X|[X|X]]; [auto|discriminate|auto].
    + assert (X : In (WaitCalled n a k) out) by (rewrite E; apply in_or_app; right; now left).
      clear - X E St IA. destruct St; cbn [In] in X; rewrite ?IA in *;
        try (repeat (destruct X as [X|X]; [discriminate X|]); contradiction).
      * destruct o1 as [|e o1]; [|destruct o1; discriminate E]. cbn [app] in E.
        injection E as <- -> _ <-. right. unfold add_wait. rewrite IA. sm. split; [|auto].
        apply in_or_app. right. now left.
      * apply popped_In in X. destruct X as (_ & ? & X & _). discriminate.
      * destruct X as [X|X]; [discriminate|]. apply popped_In in X. destruct X as (_ & ? & X & _). discriminate.
      * destruct X as [X|X]; [discriminate|]. apply popped_In in X. destruct X as (_ & ? & X & _). discriminate.
Qed.

(** *** Deaths and the callback *)
Lemma known_noticed : forall r addrs tr s, run r addrs tr s -> forall p,
  alive s p = Known -> In (Noticed p) tr.
Proof.
  intros r addrs tr s R. induction R as [N|tr s out s' R IH St]; intros p Kp.
  - unfold init in Kp. sm. destruct (p <? length addrs); discriminate.
  - destruct (run_BW _ _ _ _ R) as (IB & _). apply in_or_app.
    assert (G : alive s p = Known -> In (Noticed p) tr \/ In (Noticed p) out) by auto.
    destruct St; sm; auto.
    + unfold set_life in Kp. destruct (Nat.eqb_spec p p0); [discriminate|auto].
    + unfold set_life in Kp. destruct (Nat.eqb_spec p p0); [subst; right; now left|auto].
    + unfold set_life in Kp. destruct (Nat.eqb_spec p (next s)); [discriminate|auto].
    + unfold add_wait in Kp. destruct (auto s); auto.
    + destruct (pop_same (member a (waits s)) a s) as (_ & _ & _ & E & _). rewrite E in Kp. auto.
    + destruct (pop_same (member a (waits s)) a s) as (_ & _ & _ & E & _). rewrite E in Kp. auto.
    + unfold set_life in Kp. destruct (Nat.eqb_spec p (next s)); [discriminate|auto].
    + destruct (pop_same d a s) as (_ & _ & _ & E & _). rewrite E in Kp. auto.
Qed.

Lemma down_noticed : forall r addrs tr s, run r addrs tr s -> forall t1 a p t2,
  tr = t1 ++ Down a p :: t2 -> In (Noticed p) t1.
Proof.
  intros r addrs tr s R. induction R as [N|tr s out s' R IH St]; intros t1 a p t2 E.
  - destruct t1; discriminate.
  - apply split_app in E. destruct E as [(t2' & -> & E)|(o1 & E & ->)]; [eauto|].
    apply in_or_app. left. eapply known_noticed; eauto.
    assert (X : In (Down a p) out) by (rewrite E; apply in_or_app; right; now left).
    destruct St; cbn [In] in X; try (repeat (destruct X as [X|X]; [discriminate X|]); contradiction).
    + destruct X as [X|X]; [discriminate|]. destruct (auto s); [contradiction|]. destruct X as [X|[]]. discriminate.
    + apply popped_In in X. destruct X as (_ & ? & X & _). discriminate.
    + destruct X as [X|X]; [congruence|]. apply popped_In in X. destruct X as (_ & ? & X & _). discriminate.
    + destruct X as [X|[]]. congruence.
    + destruct X as [X|[X|[]]]; [congruence|discriminate].
    + destruct X as [X|X]; [discriminate|]. apply popped_In in X. destruct X as (_ & ? & X & _). discriminate.
Qed.

Lemma pop_handles : forall d a s, handles (pop_event d a s) = handles s.
Proof. intros [] a s; reflexivity. Qed.
Lemma pop_alive : forall d a s, alive (pop_event d a s) = alive s.
Proof. intros [] a s; reflexivity. Qed.
Lemma wait_same : forall s a, handles (add_wait s a) = handles s /\ alive (add_wait s a) = alive s /\
  mon (add_wait s a) = mon s.
Proof. intros s a. unfold add_wait. now destruct (auto s). Qed.

(** Which steps call on_process_down. *)
Ltac nope X := cbn [In] in X;
  repeat (destruct X as [X|X]; [discriminate X|]);
  first [contradiction
        | apply popped_In in X; destruct X as (_ & ? & X & _); discriminate X
        | match type of X with In _ (if ?b then _ else _) => destruct b end; cbn [In] in X;
          repeat (destruct X as [X|X]; [discriminate X|]); contradiction].

Lemma down_inv : forall s out s' a p, step s out s' -> In (Down a p) out ->
  exists todo, mon s = Round ((a, p) :: todo) /\ alive s p = Known /\ handles s' = handles s /\
    ((mon s' = Round todo /\ (auto s = false \/ In (StartFailed a) out)) \/
     exists d, mon s' = Starting a d todo /\ auto s = true).
Proof.
  intros s out s' a p St X. destruct St; try (exfalso; nope X).
  - destruct X as [X|X]; [|exfalso; nope X]. injection X as <- <-. exists todo.
    sm. rewrite pop_handles. auto 10.
  - destruct X as [X|X]; [|exfalso; nope X]. injection X as <- <-. exists todo. sm. eauto 10.
  - destruct X as [X|X]; [|exfalso; nope X]. injection X as <- <-. exists todo. sm.
    repeat split; auto. left. split; auto. right. right. now left.
Qed.

(** *** Once per process *)
Definition D (s : st) (a p : nat) : Prop :=
  p < next s /\ ~ In (a, p) (todo_of (mon s)) /\
  (dget (handles s) a = Some p -> exists d t, mon s = Starting a d t).

Lemma D_step : forall s out s' a p, step s out s' -> B s -> auto s = true ->
  ~ In (StartFailed a) out -> D s a p -> D s' a p.
Proof.
  intros s out s' a p St IB A NS (L & NT & G). unfold D.
  destruct St; sm.
  - split; [auto|split; auto].
  - split; [auto|split; auto].
  - split; [lia|split; auto]. rewrite dget_dset. destruct (Nat.eqb_spec a0 a); auto.
    intros E. injection E as E. lia.
  - split; [auto|split; auto]. rewrite dget_ddel. destruct (Nat.eqb_spec a0 a); auto. discriminate.
  - unfold add_wait. rewrite A. sm. split; [auto|split; auto].
  - split; [auto|]. split.
    + intros X. apply In_dget in X; [|now apply b_keys]. destruct (G X) as (d & t & E). congruence.
    + intros X. destruct (G X) as (d & t & E). congruence.
  - rewrite pop_handles. destruct (pop_same (member a0 (waits s)) a0 s) as (_ & _ & _ & _ & -> & _).
    rewrite H in *. sm. split; [auto|]. split; [intros X; apply NT; now right|].
    intros X. destruct (G X) as (d & t & E). discriminate.
  - congruence.
  - rewrite H in *. sm. split; [auto|]. split; [intros X; apply NT; now right|].
    intros X. destruct (G X) as (d & t & E). discriminate.
  - rewrite H in *. sm. split; [auto|]. split; [intros X; apply NT; now right|].
    intros X. destruct (G X) as (d & t & E). discriminate.
  - rewrite H in *. sm. split; [auto|]. split; [auto|].
    intros X. destruct (G X) as (d' & t & E). injection E as -> _ _. elim NS. now left.
  - rewrite H in *. sm. split; [lia|]. split; [auto|]. rewrite dget_dset.
    destruct (Nat.eqb_spec a0 a); [intros E; injection E as E; lia|].
    intros X. destruct (G X) as (d' & t & E). injection E as -> _ _. contradiction.
  - rewrite pop_handles. destruct (pop_same d a0 s) as (_ & _ & _ & _ & -> & _).
    rewrite H in *. sm. split; [auto|]. split; [auto|].
    intros X. destruct (G X) as (d' & t & E). discriminate.
  - rewrite H in *. sm. split; [auto|]. split; [auto|].
    intros X. destruct (G X) as (d' & t & E). discriminate.
  - split; [auto|]. split; [auto|]. intros X. destruct (G X) as (d & t & E). congruence.
Qed.

Lemma down_in_one : forall s out s' a p o1 o2, step s out s' -> out = o1 ++ Down a p :: o2 -> o1 = [] /\ forall b q, ~ In (Down b q) o2.
Proof.
  intros s out s' a p o1 o2 St E.
  assert (X : In (Down a p) out) by (rewrite E; apply in_or_app; right; now left).
  destruct o1 as [|e o1].
  - split; auto. destruct St; try (exfalso; nope X); cbn [app] in E; injection E as _ _ <-; intros b q Y; nope Y.
  - exfalso. cbn [app] in E. destruct St; try (nope X); injection E as _ E.
    + assert (Y : In (Down a p) (popped (member a0 (waits s)) a0 s)) by (rewrite E; apply in_or_app; right; now left). nope Y.
    + destruct o1; discriminate.
    + destruct o1 as [|? [|]]; discriminate.
Qed.

Lemma event_dec : forall x y : event, {x = y} + {x <> y}.
Proof. repeat decide equality. Qed.

Lemma D_run : forall addrs tr s, run true addrs tr s -> forall a p t1 t2,
  tr = t1 ++ Down a p :: t2 -> ~ In (StartFailed a) t2 -> D s a p.
Proof.
  intros addrs tr s R. remember true as r eqn:Er.
  induction R as [N|tr s out s' R IH St]; intros a p t1 t2 E NS; [destruct t1; discriminate|].
  destruct (run_BW _ _ _ _ R) as (IB & _ & IA). subst r.
  apply split_app in E. destruct E as [(t2' & -> & E)|(o1 & E & ->)].
  - assert (NS1 : ~ In (StartFailed a) t2') by (intros Y; apply NS, in_or_app; auto).
    assert (NS2 : ~ In (StartFailed a) out) by (intros Y; apply NS, in_or_app; auto).
    eapply D_step; eauto.
  - assert (X : In (Down a p) out) by (rewrite E; apply in_or_app; right; now left).
    destruct (down_in_one _ _ _ _ _ _ _ St E) as [-> _]. cbn [app] in E.
    assert (NS2 : ~ In (StartFailed a) out).
    { rewrite E. intros [Y|Y]; [discriminate|auto]. }
    destruct (down_inv _ _ _ _ _ St X) as (todo & M & Kp & Hs & [(M' & [F|F])|(d & M' & _)]); try congruence; try contradiction.
    assert (IB' : B s') by (eapply B_step; eauto).
    split; [|split].
    + apply lives; auto. rewrite (known_stays _ _ _ _ St IB Kp). discriminate.
    + rewrite M'. sm. intros Y. apply in_dkeys in Y. pose proof (b_todo s IB) as ND. rewrite M in ND.
      unfold dkeys in *. cbn [todo_of map fst] in ND. inversion ND; contradiction.
    + intros _. eauto.
Qed.

Lemma down_once : forall addrs tr s, run true addrs tr s -> forall a p t1 t2 t3,
  tr = t1 ++ Down a p :: t2 ++ Down a p :: t3 -> In (StartFailed a) t2.
Proof.
  intros addrs tr s R. remember true as r eqn:Er.
  induction R as [N|tr s out s' R IH St]; intros a p t1 t2 t3 E; [destruct t1; discriminate|].
  destruct (run_BW _ _ _ _ R) as (IB & _ & IA). subst r.
  rewrite app_comm_cons, app_assoc in E. apply split_app in E.
  destruct E as [(t3' & -> & E)|(o1 & E & E2)].
  - rewrite <- app_assoc in E. cbn [app] in E. eapply IH; eauto.
  - destruct (down_in_one _ _ _ _ _ _ _ St E) as [-> _]. rewrite app_nil_r in E2.
    assert (X : In (Down a p) out) by (rewrite E; now left).
    destruct (down_inv _ _ _ _ _ St X) as (todo & M & _).
    destruct (in_dec event_dec (StartFailed a) t2) as [Y|Y]; auto.
    exfalso. destruct (D_run _ _ _ R a p t1 t2) as (_ & NT & _); auto.
    apply NT. rewrite M. now left.
Qed.

(** *** A dead process is noticed and replaced within two rounds *)
Definition process_of (addrs : list nat) (tr : list event) (a p : nat) : Prop :=
  nth_error addrs p = Some a \/ In (Ready a p) tr.

(** The pool that is being replaced is known to be dead. *)
Lemma starting_known : forall r addrs tr s, run r addrs tr s -> forall a d t p,
  mon s = Starting a d t -> dget (handles s) a = Some p -> alive s p = Known.
Proof.
  intros r addrs tr s R. induction R as [N|tr s out s' R IH St]; intros b d' t q M G.
  - unfold init in M. sm. destruct addrs; discriminate.
  - destruct (run_BW _ _ _ _ R) as (IB & _ & IA). apply (known_stays _ _ _ _ St IB).
    destruct St; sm; try (eapply IH; eauto; fail); try discriminate.
    + rewrite dget_dset in G. destruct (Nat.eqb_spec a b); [|eapply IH; eauto].
      subst. exfalso. apply H. apply (b_used s IB). right. right. now rewrite M.
    + rewrite dget_ddel in G. destruct (Nat.eqb_spec a b); [discriminate|eapply IH; eauto].
    + destruct (wait_same s a) as (E1 & _ & E3). rewrite E1 in G. rewrite E3 in M. eapply IH; eauto.
    + injection M as <- <- <-. rewrite <- (b_same s IB a p q); auto. rewrite H. now left.
Qed.

Lemma combine_nth : forall (l : list nat) n i a, nth_error l i = Some a -> In (a, n + i) (combine l (seq n (length l))).
Proof.
  induction l as [|x l IH]; intros n [|i] a E; cbn [nth_error length seq combine In] in *; try discriminate.
  - injection E as ->. left. f_equal. lia.
  - right. replace (n + S i) with (S n + i) by lia. auto.
Qed.

Lemma pid_here : forall r addrs tr s, run r addrs tr s -> forall a p,
  process_of addrs tr a p -> ~ In (Removed a) tr -> alive s p <> Known -> dget (handles s) a = Some p.
Proof.
  intros r addrs tr s R. induction R as [N|tr s out s' R IH St]; intros a p P NR NK.
  - destruct P as [P|[]]. apply In_dget.
    + unfold init. sm. now rewrite (proj1 (combine_seq addrs 0)).
    + unfold init. sm. apply (combine_nth addrs 0 p a) in P. exact P.
  - destruct (run_BW _ _ _ _ R) as (IB & _ & IA).
    assert (NR1 : ~ In (Removed a) tr) by (intros Y; apply NR, in_or_app; auto).
    assert (NR2 : ~ In (Removed a) out) by (intros Y; apply NR, in_or_app; auto).
    assert (NK' : alive s p <> Known) by (intros Y; apply NK; eapply known_stays; eauto).
    assert (G : dget (handles s) a = Some p \/ In (Ready a p) out).
    { destruct P as [P|P]; [left; apply IH; auto; now left|]. apply in_app_iff in P.
      destruct P as [P|P]; [left; apply IH; auto; now right|auto]. }
    clear P IH.
    destruct St; sm; rewrite ?pop_handles; try (destruct G as [G|G]; [exact G|exfalso; nope G]).
    + rewrite dget_dset. destruct G as [G|[G|[]]]; [|injection G as -> ->; now rewrite Nat.eqb_refl].
      destruct (Nat.eqb_spec a0 a); auto. subst. exfalso. apply H, (b_used s IB). left.
      apply dget_In, in_dkeys in G. exact G.
    + rewrite dget_ddel. destruct G as [G|G]; [|exfalso; nope G].
      destruct (Nat.eqb_spec a0 a); auto. subst. elim NR2. now left.
    + destruct (wait_same s a0) as (-> & _). destruct G as [G|G]; [exact G|exfalso; nope G].
    + rewrite dget_dset. destruct G as [G|[G|[]]]; [|injection G as -> ->; now rewrite Nat.eqb_refl].
      destruct (Nat.eqb_spec a0 a); auto. subst. elim NK'. eapply starting_known; eauto.
Qed.

Definition loss_pending (a p : nat) (m : monitor) : Prop :=
  match m with Off => False | Sleeping => True | Round t | Starting _ _ t | Replaying _ _ t => In (a, p) t end.

Definition L (s : st) (a p : nat) (t2 : list event) : Prop :=
  (In (Down a p) t2 /\ (auto s = false \/ exists q, In (Ready a q) t2)) \/
  (In (Down a p) t2 /\ rounds t2 <= 1 /\ exists d t, mon s = Starting a d t) \/
  (dget (handles s) a = Some p /\ alive s p = Known /\ (forall d t, mon s <> Starting a d t) /\ (rounds t2 = 0 \/ (rounds t2 = 1 /\ loss_pending a p (mon s)))).

Lemma step_auto : forall s out s', step s out s' -> auto s' = auto s.
Proof.
  intros. destruct H; sm; auto; try (match goal with |- auto (pop_event ?d ?a ?s) = _ => apply (pop_same d a s) end).
  unfold add_wait. destruct (auto s) eqn:E; sm; auto.
Qed.

Lemma L_step : forall s out s' a p t2, step s out s' -> B s ->
  L s a p t2 -> ~ In (Removed a) out -> ~ In (StartFailed a) out -> L s' a p (t2 ++ out).
Proof.
  intros s out s' a p t2 St IB Ls NR NS. unfold L.
  destruct Ls as [(X & Y)|[(X & Rd & d & t & M)|(G & Kp & NM & Q)]].
  - left. split; [apply in_or_app; auto|]. rewrite (step_auto _ _ _ St).
    destruct Y as [Y|[q Y]]; [auto|]. right. exists q. apply in_or_app. auto.
  - (* being restarted *)
    assert (X' : In (Down a p) (t2 ++ out)) by (apply in_or_app; auto).
    rewrite rounds_app. destruct St; try congruence; sm.
    + right; left. split; auto. split; [cbn; lia|eauto].
    + right; left. split; auto. split; [cbn; lia|eauto].
    + right; left. split; auto. split; [cbn; lia|eauto].
    + right; left. split; auto. split; [cbn; lia|eauto].
    + destruct (wait_same s a0) as (_ & _ & E3). right; left. split; auto. split; [|rewrite E3; eauto].
      destruct (auto s); cbn; lia.
    + rewrite H in M. injection M as -> _ _. elim NS. now left.
    + rewrite H in M. injection M as -> _ _. left. split; auto. right. exists (next s). apply in_or_app. right. now left.
  - (* still to be noticed *)
    assert (T : forall q, In (a, q) (todo_of (mon s)) -> q = p) by (intros q Y; eapply b_same; eauto).
    pose proof (known_stays _ _ _ _ St IB Kp) as Kp'.
    assert (Z : dget (handles s') a = Some p -> (forall d t, mon s' <> Starting a d t) -> rounds out = 0 ->
      (loss_pending a p (mon s) -> loss_pending a p (mon s')) ->
      (In (Down a p) (t2 ++ out) /\ (auto s' = false \/ (exists q, In (Ready a q) (t2 ++ out)))) \/
      (In (Down a p) (t2 ++ out) /\ rounds (t2 ++ out) <= 1 /\ (exists d t, mon s' = Starting a d t)) \/
      dget (handles s') a = Some p /\ alive s' p = Known /\ (forall d t, mon s' <> Starting a d t) /\ (rounds (t2 ++ out) = 0 \/ rounds (t2 ++ out) = 1 /\ loss_pending a p (mon s'))).
    { intros A1 A2 A3 A4. right; right. repeat split; auto. rewrite rounds_app, A3, Nat.add_0_r.
      destruct Q as [Q|[Q Q']]; auto. }
    destruct St.
    + apply Z; sm; auto.
    + apply Z; sm; auto.
    + apply Z; sm; auto. rewrite dget_dset. destruct (Nat.eqb_spec a0 a); auto. subst. exfalso.
      apply H, (b_used s IB). left. apply dget_In, in_dkeys in G. exact G.
    + apply Z; sm; auto. rewrite dget_ddel. destruct (Nat.eqb_spec a0 a); auto. subst. elim NR. now left.
    + destruct (wait_same s a0) as (E1 & _ & E3). apply Z; rewrite ?E1, ?E3; auto. now destruct (auto s).
    + apply Z; sm; auto; [discriminate|]. intros _. cbn [loss_pending]. now apply dget_In.
    + apply Z; sm; rewrite ?pop_handles; auto; [discriminate|apply rounds_popped|].
      rewrite H. cbn [loss_pending In]. intros [E|I]; auto. congruence.
    + destruct (Nat.eq_dec a0 a) as [->|Na].
      * assert (p0 = p) by (apply (T p0); rewrite H; now left). subst p0.
        left. split; [apply in_or_app; right; now left|]. left. sm.
        destruct (pop_same (member a (waits s)) a s) as (E & _). congruence.
      * apply Z; sm; rewrite ?pop_handles; auto; [discriminate|apply rounds_popped|].
        rewrite H. cbn [loss_pending In]. intros [E|I]; auto. congruence.
    + destruct (Nat.eq_dec a0 a) as [->|Na].
      * assert (p0 = p) by (apply (T p0); rewrite H; now left). subst p0.
        right; left. split; [apply in_or_app; right; now left|]. split; [|sm; eauto].
        rewrite rounds_app. cbn. lia.
      * apply Z; sm; auto; [congruence|]. rewrite H. cbn [loss_pending In]. intros [E|I]; auto. congruence.
    + assert (Na : a0 <> a) by (intros ->; congruence).
      apply Z; sm; auto; [discriminate|]. rewrite H. cbn [loss_pending In]. intros [E|I]; auto. congruence.
    + apply Z; sm; auto; [discriminate|]. rewrite H. auto.
    + assert (Na : a0 <> a) by (intros ->; eapply NM; eauto).
      apply Z; sm; auto; [|discriminate|rewrite H; auto].
      rewrite dget_dset. destruct (Nat.eqb_spec a0 a); [contradiction|auto].
    + apply Z; sm; rewrite ?pop_handles; auto; [discriminate|apply rounds_popped|]. rewrite H. auto.
    + apply Z; sm; auto; [discriminate|]. rewrite H. auto.
    + right; right. sm. repeat split; auto; [discriminate|]. right.
      rewrite rounds_app. unfold rounds at 2. cbn [filter is_done length loss_pending].
      destruct Q as [Q|[_ Q]]; [split; [lia|exact Logic.I]|]. rewrite H in Q. contradiction.
Qed.

Lemma loss_noticed : forall r addrs tr s, run r addrs tr s -> forall t1 p t2 a,
  tr = t1 ++ Noticed p :: t2 -> process_of addrs t1 a p -> ~ In (Removed a) tr -> ~ In (StartFailed a) t2 ->
  L s a p t2.
Proof.
  intros r addrs tr s R. induction R as [N|tr s out s' R IH St]; intros t1 p t2 a E P NR NS; [destruct t1; discriminate|].
  destruct (run_BW _ _ _ _ R) as (IB & _ & IA).
  assert (NR1 : ~ In (Removed a) tr) by (intros Y; apply NR, in_or_app; auto).
  assert (NR2 : ~ In (Removed a) out) by (intros Y; apply NR, in_or_app; auto).
  apply split_app in E. destruct E as [(t2' & -> & E)|(o1 & E & ->)].
  - eapply L_step; eauto.
    + eapply IH; eauto. intros Y; apply NS, in_or_app; auto.
    + intros Y; apply NS, in_or_app; auto.
  - assert (X : In (Noticed p) out) by (rewrite E; apply in_or_app; right; now left).
    destruct St; try (exfalso; nope X).
    destruct X as [X|[]]. injection X as ->.
    destruct o1 as [|? [|]]; try discriminate. cbn [app] in E. injection E as <-. rewrite app_nil_r in *.
    assert (G : dget (handles s) a = Some p) by (eapply pid_here; eauto; congruence).
    right; right. sm. repeat split; auto.
    + unfold set_life. now rewrite Nat.eqb_refl.
    + intros d t M. pose proof (starting_known _ _ _ _ R _ _ _ _ M G). congruence.
Qed.

Lemma noticed_died : forall r addrs tr s, run r addrs tr s ->
  (forall q, alive s q = Dead -> In (Died q) tr) /\
  forall q m1 m2, tr = m1 ++ Noticed q :: m2 -> In (Died q) m1.
Proof.
  intros r addrs tr0 s0 R. induction R as [N|tr s out s' R [IH1 IH2] St].
  - split; [|intros q [] m2 E; discriminate]. intros q X. unfold init in X. sm.
    destruct (q <? length addrs); discriminate.
  - split.
    + intros q X. apply in_or_app.
      assert (G : alive s q = Dead -> In (Died q) tr \/ In (Died q) out) by auto.
      destruct St; sm; rewrite ?pop_alive in X; auto.
      * unfold set_life in X. destruct (Nat.eqb_spec q p); [subst; right; now left|auto].
      * unfold set_life in X. destruct (Nat.eqb_spec q p); [discriminate|auto].
      * unfold set_life in X. destruct (Nat.eqb_spec q (next s)); [discriminate|auto].
      * destruct (wait_same s a) as (_ & E & _). rewrite E in X. auto.
      * unfold set_life in X. destruct (Nat.eqb_spec q (next s)); [discriminate|auto].
    + intros q m1 m2 E. apply split_app in E. destruct E as [(m2' & -> & E)|(o1 & E & ->)]; [eauto|].
      apply in_or_app. left. apply IH1.
      assert (X : In (Noticed q) out) by (rewrite E; apply in_or_app; right; now left).
      destruct St; try (exfalso; nope X). destruct X as [X|[]]. injection X as ->. assumption.
Qed.

(** Without sub pools at the start there is no monitor. *)
Lemma never_monitored : forall r tr s, run r [] tr s -> mon s = Off /\
  forall e, In e tr -> match e with Down _ _ | Recovered _ | RoundDone => False | WaitReturned _ => r = false | _ => True end.
Proof.
  intros r tr s R. induction R as [N|tr s out s' R [IH1 IH2] St].
  - split; [reflexivity|intros e []].
  - destruct (run_BW _ _ _ _ R) as (_ & _ & IA).
    destruct St; try congruence; (split; [try (sm; assumption)|]).
    all: try (intros e X; apply in_app_iff in X; destruct X as [X|[<-|[]]]; [now apply IH2|exact Logic.I]).
    + now destruct (wait_same s a) as (_ & _ & ->).
    + intros e X. apply in_app_iff in X. destruct X as [X|[<-|X]]; [now apply IH2|exact Logic.I|].
      rewrite IA in X. destruct r; [contradiction|]. destruct X as [<-|[]]. reflexivity.
Qed.

(** The addresses that the main pool has ever used. *)
Lemma used_known : forall r addrs tr s, run r addrs tr s -> forall a,
  In a (used s) -> In a addrs \/ exists p, In (Ready a p) tr.
Proof.
  intros r addrs tr s R. induction R as [N|tr s out s' R IH St]; intros a X; [now left|].
  assert (G : In a (used s) -> In a addrs \/ exists p, In (Ready a p) (tr ++ out)).
  { intros Y. destruct (IH a Y) as [Z|[p Z]]; [now left|right]. exists p. apply in_or_app. auto. }
  destruct St; sm; auto.
  - destruct X as [<-|X]; auto. right. exists (next s). apply in_or_app. right. now left.
  - apply G. unfold add_wait in X. now destruct (auto s).
  - apply G. now destruct (pop_same (member a0 (waits s)) a0 s) as (_ & _ & _ & _ & _ & _ & <-).
  - apply G. now destruct (pop_same (member a0 (waits s)) a0 s) as (_ & _ & _ & _ & _ & _ & <-).
  - destruct X as [<-|X]; auto. right. exists (next s). apply in_or_app. right. now left.
  - apply G. now destruct (pop_same d a0 s) as (_ & _ & _ & _ & _ & _ & <-).
Qed.

(** Which address a returning wait was for. *)
Lemma returned_for : forall addrs tr s, run true addrs tr s -> forall n a k,
  In (WaitCalled n a k) tr -> In (WaitReturned n) tr -> In a addrs \/ exists p, In (Ready a p) tr.
Proof.
  intros addrs tr s R. remember true as r eqn:Er.
  induction R as [N|tr s out s' R IH St]; intros n a k C X; [contradiction|].
  destruct (run_BW _ _ _ _ R) as (IB & IW & IA). subst r.
  assert (IW' : W (tr ++ out) s') by (eapply W_step; eauto).
  assert (G : forall b, In (n, b) (waiters s) -> In b (used s) -> In a addrs \/ exists p, In (Ready a p) (tr ++ out)).
  { intros b Y U. destruct (w_from _ _ IW _ _ Y) as [k' Ck].
    assert (Cb : In (WaitCalled n b k') (tr ++ out)) by (apply in_or_app; auto).
    destruct (w_once _ _ IW' _ _ _ _ _ C Cb) as [-> _].
    destruct (used_known _ _ _ _ R _ U) as [Z|[p Z]]; [now left|right]. exists p. apply in_or_app. auto. }
  apply in_app_iff in X. destruct X as [X|X].
  - assert (C' : In (WaitCalled n a k) tr).
    { destruct (w_ret _ _ IW n X) as [Ln _]. apply in_app_iff in C. destruct C as [C|C]; auto.
      exfalso. destruct St; try (nope C). destruct C as [C|C]; [|nope C]. injection C as <- _ _. lia. }
    destruct (IH n a k C' X) as [Z|[p Z]]; [now left|right]. exists p. apply in_or_app. auto.
  - destruct St; try (exfalso; nope X).
    + exfalso. rewrite IA in X. nope X.
    + apply popped_In in X. destruct X as (_ & m & E & X). injection E as <-. apply (G _ X).
      apply (b_used s IB). rewrite H. right. left. now left.
    + congruence.
    + destruct X as [X|X]; [discriminate|]. apply popped_In in X. destruct X as (_ & m & E & X). injection E as <-. apply (G _ X).
      apply (b_used s IB). rewrite H. right. right. reflexivity.
Qed.

(** The monitor can always finish its round. *)
Lemma finish_round : forall r addrs todo tr s, run r addrs tr s -> mon s = Round todo ->
  exists t s', run r addrs (tr ++ t) s' /\ In RoundDone t /\
    (forall a, ~ In (Removed a) t) /\ (forall a, ~ In (ReplayFailed a) t) /\
    (forall a, In (StartFailed a) t -> In (Removed a) tr).
Proof.
  intros r addrs todo. induction todo as [|[a p] todo IH]; intros tr s R M.
  - exists [RoundDone]. eexists. split; [eapply run_step; [exact R|apply s_done; exact M]|].
    split; [now left|]. repeat split; intros a X; nope X.
  - assert (Go : forall o s1, run r addrs (tr ++ o) s1 -> mon s1 = Round todo ->
      (forall a, ~ In (Removed a) o) -> (forall a, ~ In (ReplayFailed a) o) ->
      (forall a, In (StartFailed a) o -> In (Removed a) tr) ->
      exists t s', run r addrs (tr ++ t) s' /\ In RoundDone t /\
        (forall a, ~ In (Removed a) t) /\ (forall a, ~ In (ReplayFailed a) t) /\
        (forall a, In (StartFailed a) t -> In (Removed a) tr)).
    { intros o s1 R1 M1 N1 N2 N3. destruct (IH _ _ R1 M1) as (t & s' & R' & D1 & D2 & D3 & D4).
      exists (o ++ t), s'. rewrite app_assoc. split; [exact R'|]. split; [apply in_or_app; auto|].
      split; [|split].
      - intros b X. apply in_app_iff in X. destruct X as [X|X]; [eapply N1|eapply D2]; eauto.
      - intros b X. apply in_app_iff in X. destruct X as [X|X]; [eapply N2|eapply D3]; eauto.
      - intros b X. apply in_app_iff in X. destruct X as [X|X]; [eauto|]. apply D4 in X.
        apply in_app_iff in X. destruct X as [X|X]; [auto|]. elim (N1 b X). }
    destruct (run_BW _ _ _ _ R) as (IB & IW & IA).
    assert (Kd : alive s p = Known \/ alive s p <> Known) by (destruct (alive s p); auto; right; discriminate).
    destruct Kd as [Kp|Kp].
    + destruct (auto s) eqn:A.
      * destruct (dget (handles s) a) as [q|] eqn:G.
        -- assert (R1 := run_step _ _ _ _ _ _ R (s_restart s a p todo M Kp A ltac:(congruence))).
           eapply run_step in R1; [|eapply s_ready; reflexivity].
           eapply run_step in R1; [|eapply s_replayed; reflexivity]. rename R1 into R3.
           rewrite <- !app_assoc in R3. eapply Go; [exact R3|reflexivity| | |]; cbn [app]; intros b X; exfalso; nope X.
        -- assert (R1 := run_step _ _ _ _ _ _ R (s_restart_gone s a p todo M Kp A G)).
           eapply Go; [exact R1|reflexivity| | |].
           ++ intros b X; nope X.
           ++ intros b X; nope X.
           ++ intros b [X|[X|[]]]; [discriminate|]. injection X as <-.
              destruct (in_dec event_dec (Removed a) tr) as [Y|Y]; auto. exfalso.
              apply dget_None in G. apply G. eapply attached; eauto. split; auto.
              eapply used_known; eauto. apply (b_used s IB). rewrite M. right. left. now left.
      * assert (R1 := run_step _ _ _ _ _ _ R (s_down s a p todo M Kp A)).
        eapply Go; [exact R1|reflexivity| | |]; intros b X; exfalso; nope X.
    + assert (R1 := run_step _ _ _ _ _ _ R (s_alive s a p todo M Kp)).
      eapply Go; [exact R1|reflexivity| | |]; intros b X; exfalso; nope X.
Qed.

Lemma monitored : forall r addrs tr s, run r addrs tr s -> addrs <> [] -> mon s <> Off.
Proof.
  intros r addrs tr s R N. induction R as [ND|tr s out s' R IH St].
  - unfold init. sm. destruct addrs; [contradiction|discriminate].
  - destruct St; sm; try discriminate; auto. now destruct (wait_same s a) as (_ & _ & ->).
Qed.

Lemma rounds_go_on : forall r addrs tr s, run r addrs tr s -> addrs <> [] ->
  exists t s', run r addrs (tr ++ t) s' /\ In RoundDone t /\
    (forall a, ~ In (Removed a) t) /\ (forall a, ~ In (ReplayFailed a) t) /\
    (forall a, In (StartFailed a) t -> In (Removed a) tr).
Proof.
  intros r addrs tr s R N. pose proof (monitored _ _ _ _ R N) as NO.
  assert (Go : forall o s1 todo, run r addrs (tr ++ o) s1 -> mon s1 = Round todo ->
      (forall a, ~ In (Removed a) o) -> (forall a, ~ In (ReplayFailed a) o) -> (forall a, ~ In (StartFailed a) o) ->
      exists t s', run r addrs (tr ++ t) s' /\ In RoundDone t /\
        (forall a, ~ In (Removed a) t) /\ (forall a, ~ In (ReplayFailed a) t) /\
        (forall a, In (StartFailed a) t -> In (Removed a) tr)).
  { intros o s1 todo R1 M1 N1 N2 N3. destruct (finish_round _ _ _ _ _ R1 M1) as (t & s' & R' & D1 & D2 & D3 & D4).
    exists (o ++ t), s'. rewrite app_assoc. split; [exact R'|]. split; [apply in_or_app; auto|].
    split; [|split]; intros b X; apply in_app_iff in X.
    - destruct X as [X|X]; [eapply N1|eapply D2]; eauto.
    - destruct X as [X|X]; [eapply N2|eapply D3]; eauto.
    - destruct X as [X|X]; [elim (N3 b X)|]. apply D4 in X. apply in_app_iff in X. destruct X as [X|X]; [auto|]. elim (N1 b X). }
  destruct (mon s) as [| |todo|a d todo|a d todo] eqn:M; [contradiction| | | |].
  - assert (R1 := run_step _ _ _ _ _ _ R (s_round s M)). eapply Go; [exact R1|reflexivity| | |]; intros b X; nope X.
  - rewrite <- (app_nil_r tr) in R. eapply (Go [] s); [exact R|exact M| | |]; intros b X; nope X.
  - assert (R2 := run_step _ _ _ _ _ _ R (s_ready _ a _ todo M)).
    eapply run_step in R2; [|eapply s_replayed; reflexivity]. rename R2 into R3.
    rewrite <- !app_assoc in R3. eapply Go; [exact R3|reflexivity| | |]; cbn [app]; intros b X; nope X.
  - assert (R3 := run_step _ _ _ _ _ _ R (s_replayed _ a _ todo M)).
    eapply Go; [exact R3|reflexivity| | |]; cbn [app]; intros b X; nope X.
Qed.
