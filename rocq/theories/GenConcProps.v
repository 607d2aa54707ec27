(** * C78: several consumers of one remote generator

    How to read.  [run locked asynchronous (fresh l e) tr = Some s]: calls for the next item of a generator that is to yield
    [l] and then to end in [e] have gone on as [tr] says; the generator is one of an Actor ([locked]) or of a
    StatelessActor, asynchronous or not.  [log s]: the answers, first one first.

    Proved.  Nothing is given out twice, out of order or invented, for either kind of actor and whatever is
    cancelled (C78_items).  Calls on an Actor, from any number of consumers at once, get each item exactly once,
    in order, then one the end or the error, and all later ones [NoIterator], if only calls that still
    wait for the lock are cancelled (C78_actor_exact_partial); the same on a StatelessActor if no two calls are under way at once
    (C78_stateless_exact_partial).  After an end, an error or [Busy] the generator is released
    (C78_released).  Every call can end (C78_can_finish).

    False: that calls at once on a StatelessActor share the items: one is told that the generator is running, and
    that ends the iteration for all (C78_stateless_refuted).  That a consumer who gives up a call (wait_for with a
    timeout, say) costs at most the item of that call: of an async generator all the rest is lost, and the
    next call is told that the iteration has ended (C78_cancelled_async_refuted); of a plain one
    a call that comes before the thread of the cancelled one is done ends the iteration for all, though
    the actor has a lock (C78_cancelled_thread_refuted). *)
From Coq Require Import List Arith Bool String Lia.
From Verif Require Import GenConcModel.
Import ListNotations.
Open Scope nat_scope.

(** ** Specification *)
Definition not_cancelled (r : result) : bool := match r with Cancelled => false | _ => true end.
(** The answers to those who have not given up. *)
Definition answers (s : st) : list result := filter not_cancelled (map snd (log s)).
Definition last_answer (e : ending) : result := match e with Return => Stopped | Raises m => Raised m end.
(** What [n] calls that are made one after the other get. *)
Definition in_turn (l : list nat) (e : ending) (n : nat) : list result := firstn n (map Item l ++ last_answer e :: repeat NoIterator n).
Definition item_of (r : result) : list nat := match r with Item v => [v] | _ => [] end.
Definition delivered (s : st) : list nat := flat_map item_of (map snd (log s)).
Inductive sub : list nat -> list nat -> Prop :=
| sub_nil : sub [] []
| sub_skip x a b : sub a b -> sub a (x :: b)
| sub_keep x a b : sub a b -> sub (x :: a) (x :: b).
Definition under_way (s : st) (i : nat) : Prop := exists p, calls s i = Some p /\ forall r, p <> Done r.
(** [P] holds of every event of the run and the state it happens in. *)
Fixpoint along (locked asynchronous : bool) (P : st -> event -> Prop) (s : st) (tr : list event) : Prop :=
  match tr with
  | [] => True
  | x :: r => P s x /\ forall s', step locked asynchronous s x = Some s' -> along locked asynchronous P s' r
  end.
Definition only_waiting_cancelled (s : st) (x : event) : Prop := forall i, x = Cancel i -> calls s i = Some Waiting.
Definition one_at_a_time (s : st) (x : event) : Prop := forall i, x = Call i -> forall j, ~ under_way s j.

(** ** Proofs *)
Lemma sub_refl l : sub l l.
Proof. induction l; [apply sub_nil|now apply sub_keep]. Qed.
Lemma sub_drop x : forall a b l, sub (a ++ x :: b) l -> sub (a ++ b) l.
Proof.
  intros a b l. remember (a ++ x :: b) as c eqn:E. intros S. revert a E. induction S as [|y a' l S IH|y a' l S IH]; intros a E.
  - destruct a; discriminate.
  - apply sub_skip. auto.
  - destruct a as [|z a]; cbn in E; injection E as <- ->.
    + cbn. now apply sub_skip.
    + cbn. apply sub_keep. auto.
Qed.
Lemma sub_cut : forall b a l, sub (a ++ b) l -> sub a l.
Proof. induction b as [|x b IH]; intros a l S; [now rewrite app_nil_r in S|]. eauto using sub_drop. Qed.
Lemma answers_finish s i r : answers (finish s i r) = answers s ++ (if not_cancelled r then [r] else []).
Proof. unfold answers, finish. cbn. rewrite map_app, filter_app. cbn. now destruct (not_cancelled r). Qed.
Lemma delivered_finish s i r : delivered (finish s i r) = delivered s ++ item_of r.
Proof. unfold delivered, finish. cbn. rewrite map_app, flat_map_app. cbn. now rewrite app_nil_r. Qed.
Lemma run_inv lk asy (I : st -> Prop) : (forall s x s', step lk asy s x = Some s' -> I s -> I s') -> forall tr s s', run lk asy s tr = Some s' -> I s -> I s'.
Proof. intros H. induction tr as [|x tr IH]; cbn; intros s s' R K; [now injection R as <-|]. destruct (step lk asy s x) eqn:S; [|discriminate]. eauto. Qed.

Section One.
Variables locked asynchronous : bool.
Notation step := (step locked asynchronous).
Notation run := (run locked asynchronous).

Ltac cases S := repeat match type of S with context [match ?c with _ => _ end] => destruct c eqn:?; try discriminate S end.

Lemma items_step l s x s' : step s x = Some s' -> sub (delivered s ++ items s) l -> sub (delivered s' ++ items s') l.
Proof.
  intros S H. destruct x as [i|i|i|i|i]; cbn in S; cases S; injection S as <-; rewrite ?delivered_finish; cbn [item_of items finish destroy set_call set_gen set_running set_lock];
    rewrite ?app_nil_r; auto; try (now destruct locked); try (eapply sub_cut; now rewrite ?app_nil_r; eassumption).
  all: try (match goal with E : items _ = _ |- _ => rewrite E in H end).
  all: try (unfold delivered in *; cbn in *; rewrite <- ?app_assoc; cbn; auto; fail).
  all: try (unfold delivered in *; cbn in *; rewrite ?app_nil_r in *; auto; eauto using sub_drop, sub_cut; fail).
  all: unfold delivered in *; cbn in *; destruct (fin s); cbn; rewrite ?app_nil_r in *; eauto using sub_cut.
Qed.


(** *** One call in the generator at a time *)
Definition active (s : st) (i : nat) : Prop := calls s i = Some Looked \/ calls s i = Some Inside.
Definition inv (l : list nat) (e : ending) (s : st) : Prop :=
  (forall i j, active s i -> active s j -> i = j) /\
  (forall i, running s = Some i -> calls s i = Some Inside) /\
  (locked = true -> forall i, active s i -> lock s = Some i) /\
  ((registered s = true /\ fin s = e /\ exists d, answers s = map Item d /\ l = d ++ items s) \/
   (registered s = false /\ (forall i, ~ active s i) /\ exists k, answers s = map Item l ++ last_answer e :: repeat NoIterator k)).
Lemma repeat_snoc {X} (x : X) k : repeat x k ++ [x] = repeat x (S k).
Proof. induction k; cbn; [auto|]. now rewrite IHk. Qed.
Lemma answers_same s s' : log s' = log s -> answers s' = answers s.
Proof. unfold answers. now intros ->. Qed.

(** What remains active when a call that is active, or was not before, changes. *)
Lemma inv_step l e s x s' : step s x = Some s' -> (forall i, x = Begin i -> forall j, ~ active s j) -> only_waiting_cancelled s x -> inv l e s -> inv l e s'.
Proof.
  intros S HB HC (I1 & I2 & I3 & I4). destruct x as [i|i|i|i|i]; cbn in S.
  - destruct (calls s i) eqn:C; [discriminate|]. injection S as <-.
    assert (A : forall j, active (set_call s i Waiting) j -> active s j) by (intros j; unfold active; cbn; destruct (Nat.eqb_spec j i); [intros [|]; discriminate|auto]).
    split; [|split; [|split]].
    + intros a b Ha Hb. apply I1; auto.
    + cbn. intros j R. destruct (Nat.eqb_spec j i) as [->|]; [apply I2 in R; congruence|auto].
    + cbn. intros L j J. apply I3; auto.
    + destruct I4 as [(R & F & d & D)|(R & N & k & K)]; [left|right]; cbn; eauto. split; auto. split; [|exists k; exact K]. intros j J. apply (N j). auto.
  - specialize (HB i eq_refl). destruct (calls s i) as [[]|] eqn:C; try discriminate. destruct (locked && match lock s with Some _ => true | None => false end) eqn:B; [discriminate|].
    destruct (registered s) eqn:R; injection S as <-.
    + assert (CC : calls (set_call (if locked then set_lock s (Some i) else s) i Looked) = fun j => if j =? i then Some Looked else calls s j) by now destruct locked.
      assert (A : forall j, active (set_call (if locked then set_lock s (Some i) else s) i Looked) j -> j = i).
      { intros j. unfold active. rewrite CC. destruct (Nat.eqb_spec j i); auto. intros J. destruct (HB j J). }
      split; [|split; [|split]].
      * intros a b Ha Hb. apply A in Ha, Hb. congruence.
      * intros j J. rewrite CC. replace (running _) with (running s) in J by now destruct locked. assert (X := I2 j J). destruct (Nat.eqb_spec j i); [congruence|auto].
      * intros L j J. apply A in J. subst j. now rewrite L.
      * left. destruct I4 as [(_ & F & d & D1 & D2)|(R' & _)]; [|congruence]. replace (registered _) with (registered s) by now destruct locked. replace (fin _) with (fin s) by now destruct locked.
        split; auto. split; auto. exists d. replace (answers _) with (answers s) by now destruct locked. replace (items _) with (items s) by now destruct locked. auto.
    + assert (A : forall j, active (finish s i NoIterator) j -> active s j) by (intros j; unfold active; cbn; destruct (Nat.eqb_spec j i); [intros [|]; discriminate|auto]).
      split; [|split; [|split]].
      * intros a b Ha Hb. apply I1; auto.
      * cbn. intros j J. destruct (Nat.eqb_spec j i) as [->|]; [apply I2 in J; congruence|auto].
      * intros L j J. destruct (HB j). auto.
      * right. destruct I4 as [(R' & _)|(_ & N & k & K)]; [congruence|]. split; [exact R|]. split; [intros j J; apply (N j); auto|].
        exists (k + 1). rewrite answers_finish, K. cbn. rewrite <- app_assoc. cbn. now rewrite repeat_snoc, Nat.add_1_r.
  - destruct (calls s i) as [[]|] eqn:C; try discriminate. assert (AI : active s i) by now left.
    destruct (running s) as [j|] eqn:R.
    { assert (X := I2 j eq_refl). assert (i = j) by (apply I1; [auto|now right]). congruence. }
    injection S as <-.
    assert (A : forall j, active (set_call (set_running s (Some i)) i Inside) j -> j = i).
    { intros j. unfold active. cbn. destruct (Nat.eqb_spec j i); auto; intros J; now apply I1. }
    split; [|split; [|split]].
    + intros a b Ha Hb. apply A in Ha, Hb. congruence.
    + cbn. intros j J. injection J as <-. now rewrite Nat.eqb_refl.
    + cbn. intros L j J. apply A in J. subst j. auto.
    + destruct I4 as [(R' & F & d & D)|(R' & N & _)]; [left|destruct (N i AI)]. cbn. split; auto. split; auto. exists d. exact D.
  - destruct (running s) as [j|] eqn:R; [|discriminate]. destruct (Nat.eqb_spec j i) as [->|]; [|discriminate]. assert (C := I2 i eq_refl). rewrite C in S.
    assert (AI : active s i) by now right.
    assert (ZZ : forall s1 r, calls s1 = calls s -> forall j, ~ active (finish s1 i r) j).
    { intros s1 r E j. unfold active. cbn. rewrite E. destruct (Nat.eqb_spec j i); [intros [|]; discriminate|]. intros J. apply n. now apply I1. }
    destruct I4 as [(R' & F & d & D1 & D2)|(R' & N & _)]; [|destruct (N i AI)].
    injection S as <-. destruct (items s) as [|v vs] eqn:E.
    + split; [|split; [|split]].
      * intros a b Ha. destruct (ZZ _ _ eq_refl _ Ha).
      * cbn. discriminate.
      * intros L j Ha. destruct (ZZ _ _ eq_refl _ Ha).
      * right. split; auto. split; [apply ZZ; auto|]. exists 0. rewrite answers_finish. rewrite F.
        replace (answers _) with (map Item d) by (rewrite <- D1; now apply answers_same). rewrite D2, app_nil_r. f_equal. cbn. now destruct e.
    + split; [|split; [|split]].
      * intros a b Ha. destruct (ZZ _ _ eq_refl _ Ha).
      * cbn. discriminate.
      * intros L j Ha. destruct (ZZ _ _ eq_refl _ Ha).
      * left. split; auto. split; [exact F|]. exists (d ++ [v]). rewrite answers_finish. cbn [not_cancelled items finish set_running set_gen].
        replace (answers _) with (map Item d) by (rewrite <- D1; now apply answers_same). rewrite map_app, <- app_assoc. auto.
  - assert (C := HC i eq_refl). rewrite C in S. injection S as <-.
    assert (A : forall j, active (finish s i Cancelled) j -> active s j) by (intros j; unfold active; cbn; destruct (Nat.eqb_spec j i); [intros [|]; discriminate|auto]).
    split; [|split; [|split]].
    + intros a b Ha Hb. apply I1; auto.
    + cbn. intros j J. destruct (Nat.eqb_spec j i) as [->|]; [apply I2 in J; congruence|auto].
    + intros L j J. cbn. apply A in J. rewrite (I3 L j J). destruct (Nat.eqb_spec j i) as [->|]; auto. unfold active in J. rewrite C in J. destruct J; discriminate.
    + destruct I4 as [(R & F & d & D)|(R & N & k & K)]; [left|right]; cbn -[answers finish].
      * split; auto. split; auto. exists d. rewrite answers_finish. cbn. rewrite app_nil_r. exact D.
      * split; auto. split; [intros j J; apply (N j); auto|]. exists k. rewrite answers_finish. cbn. now rewrite app_nil_r.
Qed.
Lemma inv_fresh l e : inv l e (fresh l e).
Proof.
  split; [|split; [|split]].
  - intros i j [H|H]; discriminate.
  - discriminate.
  - intros _ i [H|H]; discriminate.
  - left. split; auto. split; auto. exists []. auto.
Qed.
Lemma inv_exact l e s : inv l e s -> answers s = in_turn l e (List.length (answers s)).
Proof.
  intros (_ & _ & _ & [(_ & _ & d & -> & ->)|(_ & _ & k & ->)]); unfold in_turn.
  - rewrite map_app, <- app_assoc, firstn_app, firstn_all, Nat.sub_diag. cbn. now rewrite app_nil_r.
  - set (n := List.length (map Item l ++ last_answer e :: repeat NoIterator k)).
    assert (N : n = List.length l + S k) by (unfold n; rewrite app_length, map_length; cbn; now rewrite repeat_length).
    rewrite N, firstn_app, map_length, firstn_all2 by (rewrite map_length; lia). f_equal. replace (List.length l + S k - List.length l) with (S k) by lia. cbn. f_equal.
    replace (List.length l + S k) with (k + (List.length l + 1)) by lia. rewrite repeat_app, firstn_app, repeat_length, Nat.sub_diag. cbn. rewrite app_nil_r, firstn_all2; auto. now rewrite repeat_length.
Qed.
End One.

(** *** What holds whatever is cancelled *)
Definition shape (s : st) : Prop :=
  (forall i, calls s i = Some Inside -> running s = Some i) /\ (forall i, lock s = Some i -> active s i) /\
  (forall i, running s = Some i -> calls s i = Some Inside \/ calls s i = Some (Done Cancelled)).
Lemma shape_fresh l e : shape (fresh l e).
Proof. split; [|split]; cbn; intros; discriminate. Qed.
Ltac upd := unfold active in *; cbn in *; repeat match goal with
  | |- context [?j =? ?i] => destruct (Nat.eqb_spec j i); subst
  | H : context [?j =? ?i] |- _ => destruct (Nat.eqb_spec j i); subst
  end.
Lemma shape_step lk asy s x s' : step lk asy s x = Some s' -> shape s -> shape s'.
Proof.
  intros S (A & B & C). destruct x as [i|i|i|i|i]; cbn in S.
  - destruct (calls s i) eqn:E; [discriminate|]. injection S as <-. split; [|split]; intros j J.
    + upd; [discriminate|auto].
    + upd; [apply B in J; rewrite E in J; destruct J; discriminate|auto].
    + upd; [apply C in J; rewrite E in J; destruct J; discriminate|auto].
  - destruct (calls s i) as [[]|] eqn:E; try discriminate. destruct (lk && match lock s with Some _ => true | None => false end) eqn:L; [discriminate|].
    destruct (registered s) eqn:R; injection S as <-.
    + split; [|split]; intros j J.
      * destruct lk; upd; try discriminate; auto.
      * destruct lk; [cbn in J; injection J as <-; upd; [auto|congruence]|]. upd; [auto|auto].
      * destruct lk; upd; try (apply C in J; rewrite E in J; destruct J; discriminate); auto.
    + split; [|split]; intros j J.
      * upd; [discriminate|auto].
      * upd; [destruct (lock s) as [k|] eqn:LL; [destruct (Nat.eqb_spec k i); [discriminate|injection J as ->; congruence]|discriminate]|].
        destruct (lock s) as [k|] eqn:LL; [destruct (Nat.eqb_spec k i); [discriminate|apply B; congruence]|discriminate].
      * upd; [apply C in J; rewrite E in J; destruct J; discriminate|auto].
  - destruct (calls s i) as [[]|] eqn:E; try discriminate. destruct (running s) as [k|] eqn:R; injection S as <-.
    + split; [|split]; intros j J.
      * upd; [discriminate|rewrite R; auto].
      * upd; [destruct (lock s) as [k'|] eqn:LL; [destruct (Nat.eqb_spec k' i); [discriminate|injection J as ->; congruence]|discriminate]|].
        destruct (lock s) as [k'|] eqn:LL; [destruct (Nat.eqb_spec k' i); [discriminate|apply B; congruence]|discriminate].
      * upd; [rewrite R in J; apply C in J; rewrite E in J; destruct J; discriminate|apply C; congruence].
    + split; [|split]; intros j J.
      * upd; [auto|apply A in J; congruence].
      * upd; auto.
      * upd; [auto|congruence].
  - destruct (running s) as [k|] eqn:R; [|discriminate]. destruct (Nat.eqb_spec k i) as [->|]; [|discriminate].
    assert (O : forall j, j <> i -> calls s j <> Some Inside) by (intros j N J; apply A in J; congruence).
    destruct (calls s i) as [ph|] eqn:E; [|destruct (C i eq_refl) as [Q|Q]; rewrite E in Q; discriminate].
    destruct (C i eq_refl) as [Q|Q]; rewrite E in Q; injection Q as ->; injection S as <-.
    + split; [|split]; intros j J; destruct (items s); upd; try discriminate; try (now destruct (O j)).
      all: destruct (lock s) as [k'|] eqn:LL; [|discriminate]; destruct (Nat.eqb_spec k' i); [discriminate|]; try (injection J as ->; congruence); apply B; congruence.
    + split; [|split]; intros j J; destruct (items s); cbn in *; try discriminate; try exact (B j J); auto; try (destruct (Nat.eq_dec j i); [congruence|now destruct (O j)]).
  - destruct (calls s i) as [ph|] eqn:E; [|discriminate].
    assert (LK : forall s1, lock s1 = lock s -> calls s1 = calls s -> forall j, lock (finish s1 i Cancelled) = Some j -> active (finish s1 i Cancelled) j).
    { intros s1 L1 C1 j. cbn. rewrite L1. destruct (lock s) as [k|] eqn:LL; [|discriminate]. destruct (Nat.eqb_spec k i); [discriminate|]. intros Q. injection Q as ->.
      unfold active. cbn. destruct (Nat.eqb_spec j i); [contradiction|]. rewrite C1. apply B. congruence. }
    destruct ph; try discriminate; injection S as <-.
    + split; [|split; [now apply LK|]]; intros j J; upd; try discriminate; auto.
    + split; [|split; [now apply LK|]]; intros j J; upd; try discriminate; auto.
    + assert (R : running s = Some i) by auto. split; [|split; [now apply LK; destruct asy|]]; intros j J.
      * upd; [discriminate|]. assert (J' : calls s j = Some Inside) by (now destruct asy). apply A in J'. congruence.
      * upd; [auto|]. destruct asy; cbn in *; [discriminate|]. congruence.
Qed.
Lemma shape_run lk asy l e tr s : run lk asy (fresh l e) tr = Some s -> shape s.
Proof. intros R. apply (run_inv lk asy shape (shape_step lk asy) tr _ _ R). apply shape_fresh. Qed.

(** ** Theorems *)
(** What is given out is some of the items, each at most once and in their order: for both kinds of actor and of generator, whatever is cancelled. *)
Theorem C78_items : forall lk asy l e tr s, run lk asy (fresh l e) tr = Some s -> sub (delivered s) l.
Proof.
  intros lk asy l e tr s R. apply (sub_cut (items s)). apply (run_inv lk asy _ (items_step lk asy l) tr _ _ R). cbn. apply sub_refl.
Qed.

(** Actor: whoever calls, and however many at once, the answers are those of calls made one after the other. *)
Theorem C78_actor_exact_partial : forall asy l e tr s, run true asy (fresh l e) tr = Some s -> along true asy only_waiting_cancelled (fresh l e) tr ->
  answers s = in_turn l e (List.length (answers s)).
Proof.
  intros asy l e tr s R A. apply (inv_exact true).
  assert (H : forall tr s0, run true asy s0 tr = Some s -> along true asy only_waiting_cancelled s0 tr -> inv true l e s0 -> inv true l e s).
  { clear. induction tr as [|x tr IH]; cbn; intros s0 R A I; [now injection R as <-|]. destruct (step true asy s0 x) as [s1|] eqn:S; [|discriminate]. destruct A as [A1 A2].
    apply (IH s1 R (A2 _ eq_refl)). apply (inv_step true asy l e s0 x s1 S); auto. intros i -> j J. destruct I as (_ & _ & L & _). specialize (L eq_refl j J).
    cbn in S. rewrite L in S. destruct (calls s0 i) as [[]|]; discriminate. }
  eapply H; eauto using inv_fresh.
Qed.

(** StatelessActor: the same if no call is made before the last one has ended. *)
Theorem C78_stateless_exact_partial : forall asy l e tr s, run false asy (fresh l e) tr = Some s -> along false asy only_waiting_cancelled (fresh l e) tr ->
  along false asy one_at_a_time (fresh l e) tr -> answers s = in_turn l e (List.length (answers s)).
Proof.
  intros asy l e tr s R A O. apply (inv_exact false).
  assert (H : forall tr s0, run false asy s0 tr = Some s -> along false asy only_waiting_cancelled s0 tr -> along false asy one_at_a_time s0 tr ->
     (forall i j, under_way s0 i -> under_way s0 j -> i = j) -> inv false l e s0 -> inv false l e s).
  { clear. induction tr as [|x tr IH]; cbn; intros s0 R A O U I; [now injection R as <-|]. destruct (step false asy s0 x) as [s1|] eqn:S; [|discriminate]. destruct A as [A1 A2]. destruct O as [O1 O2].
    assert (W : forall s1 i p, (forall j, j <> i -> calls s1 j = calls s0 j) -> under_way s0 i -> calls s1 i = Some p -> forall a b, under_way s1 a -> under_way s1 b -> a = b).
    { clear - U. intros s1 i p E Wi _ a b Ha Hb. assert (X : forall c, under_way s1 c -> c = i).
      { intros c Hc. destruct (Nat.eq_dec c i); auto. apply U; auto. destruct Hc as (q & Q & D). exists q. rewrite E in Q; auto. }
      rewrite (X a Ha), (X b Hb). auto. }
    apply (IH s1 R (A2 _ eq_refl) (O2 _ eq_refl)).
    - destruct x as [i|i|i|i|i]; cbn in S.
      + destruct (calls s0 i) eqn:E; [discriminate|]. injection S as <-. assert (X : forall c, under_way (set_call s0 i Waiting) c -> c = i).
        { intros c (q & Q & D). cbn in Q. destruct (Nat.eqb_spec c i); auto. destruct (O1 i eq_refl c). exists q. auto. }
        intros a b Ha Hb. rewrite (X a Ha), (X b Hb). auto.
      + destruct (calls s0 i) as [[]|] eqn:E; try discriminate. assert (Wi : under_way s0 i) by (eexists; split; [exact E|discriminate]).
        destruct (registered s0); injection S as <-; (eapply (W _ i); [|exact Wi|cbn; rewrite Nat.eqb_refl; reflexivity]); intros j N; cbn; destruct (Nat.eqb_spec j i); congruence.
      + destruct (calls s0 i) as [[]|] eqn:E; try discriminate. assert (Wi : under_way s0 i) by (eexists; split; [exact E|discriminate]).
        destruct (running s0); injection S as <-; (eapply (W _ i); [|exact Wi|cbn; rewrite Nat.eqb_refl; reflexivity]); intros j N; cbn; destruct (Nat.eqb_spec j i); congruence.
      + destruct (running s0) as [k|] eqn:E; [|discriminate]. destruct (Nat.eqb_spec k i) as [->|]; [|discriminate]. destruct I as (_ & I2 & _). assert (C := I2 i E). rewrite C in S.
        assert (Wi : under_way s0 i) by (eexists; split; [exact C|discriminate]).
        injection S as <-. eapply (W _ i); [|exact Wi|cbn; rewrite Nat.eqb_refl; reflexivity]. intros j N. destruct (items s0); cbn; destruct (Nat.eqb_spec j i); congruence.
      + assert (C := A1 i eq_refl). rewrite C in S. assert (Wi : under_way s0 i) by (eexists; split; [exact C|discriminate]). injection S as <-.
        eapply (W _ i); [|exact Wi|cbn; rewrite Nat.eqb_refl; reflexivity]. intros j N. cbn. destruct (Nat.eqb_spec j i); congruence.
    - apply (inv_step false asy l e s0 x s1 S); auto. intros i -> j J. cbn in S. destruct (calls s0 i) as [[]|] eqn:E; try discriminate.
      assert (Q : i = j). { apply U; [exists Waiting; split; auto; discriminate|]. destruct J as [J|J]; eexists; (split; [exact J|discriminate]). }
      subst j. destruct J; congruence. }
  apply (H tr (fresh l e) R A O); [intros i j (p & C & _); discriminate|apply inv_fresh].
Qed.

(** After any answer but an item, the generator is released. *)
Theorem C78_released : forall lk asy l e tr s r, run lk asy (fresh l e) tr = Some s -> In r (answers s) -> item_of r = [] -> registered s = false.
Proof.
  intros lk asy l e tr s r R. revert r.
  apply (run_inv lk asy (fun s => forall r, In r (answers s) -> item_of r = [] -> registered s = false)) with (2 := R); [|intros r []].
  clear. intros s x s' S H. assert (F : forall s1 i r, log s1 = log s -> (registered s = false -> registered s1 = false) -> (item_of r <> [] \/ r = Cancelled \/ registered s1 = false) ->
    forall r', In r' (answers (finish s1 i r)) -> item_of r' = [] -> registered (finish s1 i r) = false).
  { intros s1 i r L M Q r' J Z. rewrite answers_finish in J. apply in_app_or in J. cbn. destruct J as [J|J]; [apply M; apply (H r'); auto; now rewrite (answers_same s s1)  in J|].
    destruct Q as [Q|[->|Q]]; [|destruct J|auto]. destruct (not_cancelled r); [destruct J as [<-|[]]; contradiction|destruct J]. }
  destruct x as [i|i|i|i|i]; cbn in S.
  - destruct (calls s i); [discriminate|]. injection S as <-. exact H.
  - destruct (calls s i) as [[]|]; try discriminate. destruct (lk && _); [discriminate|]. destruct (registered s) eqn:R; injection S as <-.
    + intros r J Z. exfalso. assert (X : true = false); [|discriminate]. apply (H r); auto. destruct lk; exact J.
    + apply F; auto.
  - destruct (calls s i) as [[]|]; try discriminate. destruct (running s); injection S as <-; [apply F; auto|exact H].
  - destruct (running s) as [j|]; [|discriminate]. destruct (j =? i); [|discriminate].
    destruct (items s) as [|v vs]; destruct (calls s i) as [[]|]; injection S as <-; try exact H; apply F; auto. left. discriminate.
  - destruct (calls s i) as [[]|]; try discriminate; injection S as <-; apply F; auto. destruct asy; auto. destruct asy; auto.
Qed.

(** Every call can come to its end, by turns of the calls there are and without giving up one. *)
Theorem C78_can_finish : forall lk asy l e tr s i, run lk asy (fresh l e) tr = Some s -> under_way s i ->
  exists tr' s' r, run lk asy s tr' = Some s' /\ calls s' i = Some (Done r) /\ r <> Cancelled /\ forall x, In x tr' -> exists j, x = Begin j \/ x = Enter j \/ x = Yield j.
Proof.
  intros lk asy l e tr s i R U. assert (SH := shape_run _ _ _ _ _ _ R).
  assert (RA : forall tr1 tr2 s0, run lk asy s0 (tr1 ++ tr2) = match run lk asy s0 tr1 with Some s1 => run lk asy s1 tr2 | None => None end).
  { induction tr1 as [|x tr1 IH]; intros tr2 s0; cbn; auto. destruct (step lk asy s0 x); auto. }
  assert (IN : forall s0 j, shape s0 -> calls s0 j = Some Inside -> exists s' r, run lk asy s0 [Yield j] = Some s' /\ calls s' j = Some (Done r) /\ r <> Cancelled /\
     (forall k, k <> j -> calls s' k = calls s0 k) /\ lock s' = match lock s0 with Some k => if k =? j then None else Some k | None => None end).
  { intros s0 j (A & _) C. cbn. rewrite (A j C), Nat.eqb_refl, C. eexists _, _. split; [reflexivity|]. split; [cbn; now rewrite Nat.eqb_refl|].
    split; [destruct (items s0); [destruct (fin s0)|]; discriminate|]. split; [|destruct (items s0); reflexivity]. intros k N. destruct (items s0); cbn; destruct (Nat.eqb_spec k j); congruence. }
  assert (AC : forall s0 j, shape s0 -> active s0 j -> exists tr' s' r, run lk asy s0 tr' = Some s' /\ calls s' j = Some (Done r) /\ r <> Cancelled /\
     (forall k, k <> j -> calls s' k = calls s0 k) /\ lock s' = match lock s0 with Some k => if k =? j then None else Some k | None => None end /\ forall x, In x tr' -> exists j, x = Begin j \/ x = Enter j \/ x = Yield j).
  { intros s0 j SH0 [C|C].
    - destruct (running s0) as [k|] eqn:RN.
      + exists [Enter j]. cbn. rewrite C, RN. eexists _, Busy. split; [reflexivity|]. split; [cbn; now rewrite Nat.eqb_refl|]. split; [discriminate|].
        split; [intros k' N; cbn; destruct (Nat.eqb_spec k' j); congruence|]. split; [reflexivity|]. intros x [<-|[]]. eauto.
      + assert (E : step lk asy s0 (Enter j) = Some (set_call (set_running s0 (Some j)) j Inside)) by (cbn; now rewrite C, RN).
        destruct (IN _ j (shape_step _ _ _ _ _ E SH0)) as (s' & r & R' & D & Z & K & L); [cbn; now rewrite Nat.eqb_refl|].
        exists [Enter j; Yield j], s', r. split; [cbn [run] in *; rewrite E; exact R'|]. split; auto. split; auto. split; [intros k N; rewrite K by auto; cbn; destruct (Nat.eqb_spec k j); congruence|].
        split; [exact L|]. intros x [<-|[<-|[]]]; eauto.
    - destruct (IN _ j SH0 C) as (s' & r & R' & D & Z & K & L). exists [Yield j], s', r. split; auto. split; auto. split; auto. split; auto. split; auto. intros x [<-|[]]; eauto. }
  destruct U as ([| | |r0] & C & N); [| | |now destruct (N r0)].
  - assert (FR : exists tr1 s1, run lk asy s tr1 = Some s1 /\ calls s1 i = Some Waiting /\ (lk && match lock s1 with Some _ => true | None => false end = false) /\ shape s1 /\ forall x, In x tr1 -> exists j, x = Begin j \/ x = Enter j \/ x = Yield j).
    { destruct (lock s) as [j|] eqn:L.
      - destruct SH as (A & B & SC). assert (AJ := B j L). assert (NE : i <> j) by (intros ->; destruct AJ; congruence).
        destruct (AC s j (conj A (conj B SC)) AJ) as (tr' & s' & r & R' & D & Z & K & LL & X). exists tr', s'. split; auto. split; [rewrite K; auto|]. rewrite LL, L, Nat.eqb_refl, andb_false_r. split; auto. split; auto.
        apply (run_inv lk asy shape (shape_step lk asy) tr' _ _ R'). split; auto.
      - exists [], s. cbn. rewrite L, andb_false_r. split; auto. split; auto. split; auto. split; auto. intros x []. }
    destruct FR as (tr1 & s1 & R1 & C1 & L1 & S1 & X1). destruct (registered s1) eqn:RG.
    + assert (E : step lk asy s1 (Begin i) = Some (set_call (if lk then set_lock s1 (Some i) else s1) i Looked)) by (cbn; now rewrite C1, L1, RG).
      destruct (AC _ i (shape_step _ _ _ _ _ E S1)) as (tr2 & s2 & r & R2 & D & Z & _ & _ & X2); [left; cbn; now rewrite Nat.eqb_refl|].
      exists (tr1 ++ Begin i :: tr2), s2, r. rewrite RA, R1. cbn [run]. rewrite E. split; auto. split; auto. split; auto. intros x J. apply in_app_or in J. destruct J as [J|[<-|J]]; eauto.
    + exists (tr1 ++ [Begin i]). rewrite RA, R1. cbn. rewrite C1, L1, RG. eexists _, NoIterator. split; [reflexivity|]. split; [cbn; now rewrite Nat.eqb_refl|]. split; [discriminate|].
      intros x J. apply in_app_or in J. destruct J as [J|[<-|[]]]; eauto.
  - destruct (AC s i SH) as (tr' & s' & r & R' & D & Z & _ & _ & X); [now left|]. eauto 8.
  - destruct (AC s i SH) as (tr' & s' & r & R' & D & Z & _ & _ & X); [now right|]. eauto 8.
Qed.

(** *** Giving up calls *)
Definition given_up (s : st) : nat := List.length (filter (fun r => negb (not_cancelled r)) (map snd (log s))).
(** Claim: a call that is given up costs at most one item. *)
Definition costs_one (asy : bool) : Prop := forall lk l e tr s, run lk asy (fresh l e) tr = Some s -> List.length l <= List.length (delivered s) + List.length (items s) + given_up s.
(** True of generators that are not asynchronous ... *)
Theorem C78_cost_partial : costs_one false.
Proof.
  intros lk l e tr s R.
  set (orphan := fun s => match running s with Some i => match calls s i with Some (Done _) => 1 | _ => 0 end | None => 0 end).
  assert (H : shape s /\ List.length l + orphan s <= List.length (delivered s) + List.length (items s) + given_up s); [|lia].
  apply (run_inv lk false (fun s => shape s /\ List.length l + orphan s <= List.length (delivered s) + List.length (items s) + given_up s)) with (2 := R); [|split; [apply shape_fresh|unfold orphan, delivered, given_up; cbn; lia]].
  clear s R. intros s x s' S (SH & H). split; [eapply shape_step; eauto|]. destruct SH as (A & B & C).
  assert (G : forall s1 i r, given_up (finish s1 i r) = given_up s1 + (if not_cancelled r then 0 else 1)).
  { intros s1 i r. unfold given_up, finish. cbn. rewrite map_app, filter_app, app_length. cbn. now destruct (not_cancelled r). }
  destruct x as [i|i|i|i|i]; cbn in S.
  - destruct (calls s i) eqn:E; [discriminate|]. injection S as <-. unfold orphan in *. cbn. destruct (running s) as [j|] eqn:RN; [|exact H]. destruct (Nat.eqb_spec j i) as [->|]; [|exact H].
    rewrite E in H. exact H.
  - destruct (calls s i) as [[]|] eqn:E; try discriminate. destruct (lk && _); [discriminate|]. destruct (registered s); injection S as <-.
    + assert (X : orphan (set_call (if lk then set_lock s (Some i) else s) i Looked) <= orphan s).
      { unfold orphan. destruct lk; cbn; (destruct (running s) as [j|]; [|auto]); (destruct (Nat.eqb_spec j i); [lia|auto]). }
      destruct lk; unfold delivered, given_up in *; cbn in *; lia.
    + rewrite delivered_finish, G. cbn [item_of not_cancelled]. rewrite app_nil_r.
      assert (X : orphan (finish s i NoIterator) = orphan s). { unfold orphan. cbn. destruct (running s) as [j|] eqn:RN; [|auto]. destruct (Nat.eqb_spec j i) as [->|]; [|auto]. destruct (C i eq_refl); congruence. }
      rewrite X. cbn. lia.
  - destruct (calls s i) as [[]|] eqn:E; try discriminate. destruct (running s) as [k|] eqn:RN; injection S as <-.
    + rewrite delivered_finish, G. cbn [item_of not_cancelled]. rewrite app_nil_r.
      assert (X : orphan (finish (destroy s) i Busy) = orphan s). { unfold orphan. cbn. rewrite RN. destruct (Nat.eqb_spec k i) as [->|]; [|auto]. destruct (C i eq_refl); congruence. }
      rewrite X. unfold delivered, given_up in *. cbn in *. lia.
    + unfold orphan in *. cbn. rewrite Nat.eqb_refl. rewrite RN in H. exact H.
  - destruct (running s) as [k|] eqn:RN; [|discriminate]. destruct (Nat.eqb_spec k i) as [->|]; [|discriminate]. unfold orphan in H. rewrite RN in H.
    destruct (C i eq_refl) as [E|E]; rewrite E in S, H; injection S as <-.
    + rewrite delivered_finish, G, app_length. destruct (items s) as [|v vs]; unfold orphan, delivered, given_up in *; cbn in *; [destruct (fin s); cbn; lia|lia].
    + destruct (items s) as [|v vs]; unfold orphan, delivered, given_up in *; cbn in *; lia.
  - assert (X : forall ph, calls s i = Some ph -> (forall r, ph <> Done r) -> orphan (finish s i Cancelled) <= orphan s + 1).
    { intros ph E Z. unfold orphan. cbn. destruct (running s) as [j|]; [|lia]. destruct (Nat.eqb_spec j i); [lia|]. lia. }
    destruct (calls s i) as [[]|] eqn:E; try discriminate; injection S as <-; rewrite delivered_finish, G; cbn [item_of not_cancelled]; rewrite app_nil_r.
    all: assert (Y := X _ eq_refl); cbn [items finish]; cbn [item_of] in *.
    all: match goal with |- _ + ?o <= _ => assert (o <= orphan s + 1) by (apply Y; intros; discriminate) end; unfold delivered, given_up in *; cbn in *; lia.
Qed.
(** ... and false of asynchronous ones, also on an Actor: all the rest is lost, and the next call is told that the iteration has ended. *)
Theorem C78_cancelled_async_refuted : ~ costs_one true /\
  exists s, run true true (fresh [1; 2; 3] Return) [Call 0; Begin 0; Enter 0; Cancel 0; Call 1; Begin 1; Enter 1; Yield 1] = Some s /\ log s = [(0, Cancelled); (1, Stopped)].
Proof.
  split; [|eexists; split; vm_compute; reflexivity]. intros C.
  assert (R : exists s, run true true (fresh [1; 2; 3] Return) [Call 0; Begin 0; Enter 0; Cancel 0] = Some s /\ delivered s = [] /\ items s = [] /\ given_up s = 1).
  { eexists. split; [vm_compute; reflexivity|]. vm_compute. auto. }
  destruct R as (s & R & D & I & G). specialize (C true _ _ _ _ R). rewrite D, I, G in C. cbn in C. lia.
Qed.

(** Claim: nobody is answered without an item while there are items. *)
Definition while_there_are (lk asy : bool) (allowed : event -> Prop) : Prop :=
  forall l e tr s r, run lk asy (fresh l e) tr = Some s -> (forall x, In x tr -> allowed x) -> In r (answers s) -> item_of r = [] -> items s = [].
(** False of a StatelessActor, without any cancelling: two calls at once end the iteration for all. *)
Theorem C78_stateless_refuted : forall asy, ~ while_there_are false asy (fun x => forall i, x <> Cancel i).
Proof.
  intros asy C.
  assert (R : exists s, run false asy (fresh [1; 2] Return) [Call 0; Call 1; Begin 0; Begin 1; Enter 0; Enter 1] = Some s /\ answers s = [Busy] /\ items s = [1; 2]).
  { eexists. split; [destruct asy; vm_compute; reflexivity|]. vm_compute. auto. }
  destruct R as (s & R & A & I). specialize (C _ _ _ _ Busy R). rewrite A, I in C. assert (X : [1; 2] = []); [|discriminate].
  apply C; cbn; auto. intros x J i ->. intuition discriminate.
Qed.
(** False of an Actor and a plain generator: the call after one that was given up finds its thread still in the generator. *)
Theorem C78_cancelled_thread_refuted : ~ while_there_are true false (fun _ => True).
Proof.
  intros C.
  assert (R : exists s, run true false (fresh [1; 2] Return) [Call 0; Begin 0; Enter 0; Cancel 0; Call 1; Begin 1; Enter 1] = Some s /\ answers s = [Busy] /\ items s = [1; 2]).
  { eexists. split; [vm_compute; reflexivity|]. vm_compute. auto. }
  destruct R as (s & R & A & I). specialize (C _ _ _ _ Busy R). rewrite A, I in C. assert (X : [1; 2] = []); [|discriminate]. apply C; cbn; auto.
Qed.
(** An Actor, if only calls that wait for the lock are cancelled: true (and so is C78_actor_exact_partial). *)

Module Demo.
(** Three consumers at once on an Actor; one gives up while it waits. *)
Definition tr := [Call 0; Call 1; Call 2; Begin 1; Enter 1; Call 3; Cancel 2; Yield 1; Begin 0; Enter 0; Yield 0; Begin 3; Enter 3; Yield 3; Call 4; Begin 4].
Example demo : option_map log (run true true (fresh [7; 8] (Raises "e")) tr) = Some [(2, Cancelled); (1, Item 7); (0, Item 8); (3, Raised "e"); (4, NoIterator)].
Proof. vm_compute. reflexivity. Qed.
Example demo_in_turn : in_turn [7; 8] (Raises "e") 4 = [Item 7; Item 8; Raised "e"; NoIterator].
Proof. reflexivity. Qed.
Example demo_along : along true true only_waiting_cancelled (fresh [7; 8] (Raises "e")) tr.
Proof.
  unfold tr. repeat (split; [intros i Q; first [discriminate Q|injection Q as <-; reflexivity]|let s' := fresh "s" in let E := fresh "E" in intros s' E; vm_compute in E; injection E as <-]). exact I.
Qed.
(** One after the other on a StatelessActor. *)
Definition tr1 := [Call 0; Begin 0; Enter 0; Yield 0; Call 1; Begin 1; Enter 1; Yield 1; Call 2; Begin 2; Enter 2; Yield 2].
Example demo_stateless : option_map log (run false false (fresh [7; 8] Return) tr1) = Some [(0, Item 7); (1, Item 8); (2, Stopped)].
Proof. vm_compute. reflexivity. Qed.
Example demo_one : along false false one_at_a_time (fresh [7; 8] Return) tr1.
Proof.
  assert (D : forall s n, (forall i, i < n -> exists r, calls s i = Some (Done r)) -> (forall i, n <= i -> calls s i = None) -> forall j, ~ under_way s j).
  { intros s n H1 H2 j (p & C & N). destruct (Nat.lt_ge_cases j n) as [L|L]; [destruct (H1 j L) as (r & E); apply (N r); congruence|rewrite H2 in C by auto; discriminate]. }
  unfold tr1.
  repeat (split; [intros i Q; first [discriminate Q|clear Q]|let s' := fresh "s" in let E := fresh "E" in intros s' E; vm_compute in E; injection E as <-]).
  4: exact I.
  - apply (D _ 0); [intros k L; lia|reflexivity].
  - apply (D _ 1); [intros [|k] L; [eexists; vm_compute; reflexivity|lia]|intros [|k] L; [lia|reflexivity]].
  - apply (D _ 2); [intros [|[|k]] L; try lia; eexists; vm_compute; reflexivity|intros [|[|k]] L; [lia|lia|reflexivity]].
Qed.
End Demo.

Print Assumptions C78_items.
Print Assumptions C78_actor_exact_partial.
Print Assumptions C78_stateless_exact_partial.
Print Assumptions C78_released.
Print Assumptions C78_can_finish.
Print Assumptions C78_cost_partial.
Print Assumptions C78_cancelled_async_refuted.
Print Assumptions C78_stateless_refuted.
Print Assumptions C78_cancelled_thread_refuted.
