(** * C62: the calls of one task on one actor start in the order in which they were made

    How to read.  A request [m] is a call or a tell of one actor; [src m] is the task that makes it.  [made s] are all
    requests so far in the order in which they were made, [started s] those whose method has begun, in the order in
    which the methods began.  [gone s] are the requests that were cancelled, or lost with a connection, before they
    started.  [before a b l]: [a] stands before [b] in [l].
    [run src chan lockfree ts s]: [s] is a state that a process can reach; the tasks [ts] of the process itself use
    local references, all other tasks have a channel ([chan]). *)
From Coq Require Import List Arith Bool Lia.
From Verif Require Import OrderModel OrderProofs.
Import ListNotations.

(** ** Specification *)
Definition before (a b : nat) (l : list nat) : Prop := exists p q r, l = p ++ a :: q ++ b :: r.
(** The methods of [a] and [b] take the actor's lock, as all methods that are not marked [no_lock]. *)
Definition same_task (src : nat -> nat) (lockfree : nat -> bool) (a b : nat) : Prop := src a = src b /\ lockfree a = false /\ lockfree b = false.
(** The task awaits each of its tells before it goes on (which only matters for local references). *)
Definition awaits (chan : nat -> option nat) (s : st) (x : nat) : Prop := chan x <> None \/ ~ In x (loose s).
Definition claim : Prop := forall src chan lockfree ts s a b, NoDup ts -> run src chan lockfree ts s -> same_task src lockfree a b ->
  before a b (made s) -> In b (started s) -> before a b (started s) \/ In a (gone s).

(** ** Lists *)
Lemma before_in a b l : before a b l -> In a l /\ In b l.
Proof. intros (p & q & r & ->). split; apply in_or_app; right; [now left|]. right. apply in_or_app. right. now left. Qed.
Lemma before_filter P a b l : P a = true -> P b = true -> before a b l -> before a b (filter P l).
Proof.
  intros A B (p & q & r & ->). exists (filter P p), (filter P q), (filter P r). rewrite filter_app. cbn. rewrite A. rewrite filter_app. cbn. now rewrite B.
Qed.
Lemma filter_split P (l : list nat) p a q : filter P l = p ++ a :: q -> exists p' q', l = p' ++ a :: q' /\ filter P q' = q /\ filter P p' = p.
Proof.
  revert p. induction l as [|x l IH]; intros p E; cbn in E; [destruct p; discriminate|]. destruct (P x) eqn:PX.
  - destruct p as [|y p]; cbn in E.
    + injection E as -> E. now exists [], l.
    + injection E as -> E. destruct (IH p E) as (p' & q' & -> & <- & <-). exists (y :: p'), q'. cbn. now rewrite PX.
  - destruct (IH p E) as (p' & q' & -> & <- & <-). exists (x :: p'), q'. cbn. now rewrite PX.
Qed.
Lemma filter_before P a b l : before a b (filter P l) -> before a b l.
Proof.
  intros (p & q & r & E). apply filter_split in E as (p' & q' & -> & E & _). apply filter_split in E as (q'' & r' & -> & _). now exists p', q'', r'.
Qed.
Lemma before_prefix a b l r : NoDup (l ++ r) -> before a b (l ++ r) -> In b l -> before a b l.
Proof.
  intros N (p & q & t & E) I. assert (E' : l ++ r = (p ++ a :: q) ++ b :: t) by (rewrite E; now rewrite <- app_assoc).
  apply split_app in E' as [(t' & -> & ->)|(p' & E2 & ->)].
  - exists p, q, t'. now rewrite <- app_assoc.
  - exfalso. apply in_split in I as (u & v & ->). rewrite <- !app_assoc in N. cbn in N. apply NoDup_remove_2 in N. apply N.
    apply in_or_app. right. apply in_or_app. right. apply in_or_app. right. now left.
Qed.
Lemma NoDup_cn l : (forall m, cn m l <= 1) -> NoDup l.
Proof. intros H. rewrite (NoDup_count_occ ed). exact H. Qed.

Section theorems.
  Variables (src : nat -> nat) (chan : nat -> option nat) (lockfree : nat -> bool) (ts : list nat).
  Hypothesis Hts : NoDup ts.

  Lemma pick_yes x gn m : src m = x -> lockfree m = false -> ~ In m gn -> (Nat.eqb (src m) x && locked lockfree m && negb (mem m gn)) = true.
  Proof. intros -> L G. rewrite Nat.eqb_refl. unfold locked. rewrite L. apply mem_not in G. now rewrite G. Qed.

  Theorem C62_no_overtaking s a b : run src chan lockfree ts s -> same_task src lockfree a b -> awaits chan s (src a) ->
    before a b (made s) -> In b (started s) -> before a b (started s) \/ In a (gone s).
  Proof.
    intros R (E & LA & LB) W B I. pose proof (inv_run _ _ _ _ _ Hts R) as [C T F L M SG O].
    destruct (in_dec ed a (gone s)) as [G|G]; [now right|left].
    assert (GB : ~ In b (gone s)) by (intros Y; now apply (c_gone _ _ _ C) in Y as (Y & _)).
    specialize (O (src a) W). unfold places in O. rewrite pick_app in O.
    assert (PA := pick_yes (src a) (gone s) a eq_refl LA G). assert (PB := pick_yes (src a) (gone s) b (eq_sym E) LB GB).
    assert (B1 : before a b (pick src lockfree (src a) (gone s) (made s))) by now apply before_filter.
    assert (N : NoDup (pick src lockfree (src a) (gone s) (made s))) by (apply NoDup_filter; apply (c_made _ _ _ C)).
    rewrite O in B1, N. eapply filter_before. eapply before_prefix; [exact N|exact B1|]. apply filter_In. split; assumption.
  Qed.
  (** ... and no method runs twice; what is gone never runs. *)
  Theorem C62_at_most_once s : run src chan lockfree ts s -> NoDup (started s) /\ forall m, In m (started s) -> In m (made s) /\ ~ In m (gone s).
  Proof.
    intros R. pose proof (inv_run _ _ _ _ _ Hts R) as [C T F L M SG O]. split.
    - apply NoDup_cn. intros m. pose proof (c_one _ _ _ C m) as C1. unfold places in C1. rewrite !count_occ_app in C1. lia.
    - intros m I. split.
      + destruct (in_dec ed m (made s)) as [Y|Y]; [exact Y|]. pose proof (c_out0 _ _ _ C m Y) as C0. unfold places in C0. rewrite !count_occ_app in C0. apply cn_in in I. lia.
      + intros G. now apply (c_gone _ _ _ C) in G as (G & _).
  Qed.
  (** Without cancellation and lost connections: the requests of a task that have started are the first ones it made. *)
  Theorem C62_prefix s x : run src chan lockfree ts s -> awaits chan s x -> gone s = [] ->
    exists rest, filter (fun m => Nat.eqb (src m) x && negb (lockfree m)) (made s) = filter (fun m => Nat.eqb (src m) x && negb (lockfree m)) (started s) ++ rest.
  Proof.
    intros R W G. pose proof (inv_run _ _ _ _ _ Hts R) as [C T F L M SG O]. specialize (O x W). unfold places in O. rewrite pick_app, G in O. unfold pick in O.
    assert (X : forall l, filter (fun m => Nat.eqb (src m) x && locked lockfree m && negb (mem m [])) l = filter (fun m => Nat.eqb (src m) x && negb (lockfree m)) l)
      by (intros l; apply filter_ext; intros m; cbn; unfold locked; now rewrite andb_true_r).
    rewrite !X in O. eauto.
  Qed.
  (** One method runs at a time, and they finish in the order in which they started. *)
  Theorem C62_one_at_a_time s : run src chan lockfree ts s ->
    exists running, filter (fun m => negb (lockfree m)) (started s) = filter (fun m => negb (lockfree m)) (finished s) ++ running /\ length running <= 1.
  Proof.
    intros R. pose proof (inv_run _ _ _ _ _ Hts R) as [C T F L M SG O]. unfold Mutex in M. exists (match holder s with Some m => [m] | None => [] end).
    split; [exact M|]. destruct (holder s); cbn; lia.
  Qed.
  (** Nothing is forgotten: when the loop has nothing to do and no method runs, each request that has been received
      has started or was cancelled. *)
  Theorem C62_nothing_forgotten s m : run src chan lockfree ts s -> ready s = [] -> holder s = None -> In m (made s) ->
    In m (started s) \/ In m (gone s) \/ In m (outgoing s) \/ exists c, chan (src m) = Some c /\ In m (links s c).
  Proof.
    intros R RD H I. pose proof (inv_run _ _ _ _ _ Hts R) as [C T F L M SG O].
    assert (W : waiters s = []).
    { destruct (waiters s) as [|[y f] ws] eqn:W; [reflexivity|exfalso]. destruct f.
      - now apply (l_first _ _ L y ws W).
      - assert (Y : In y (wakes (ready s))) by (apply (l_wake _ _ L y SetResult); [rewrite W; now left|discriminate]). rewrite RD in Y. easy.
      - assert (Y : In y (wakes (ready s))) by (apply (l_wake _ _ L y FutCancelled); [rewrite W; now left|discriminate]). rewrite RD in Y. easy. }
    destruct (in_dec ed m (gone s)) as [G|G]; [auto|]. pose proof (c_in _ _ _ C m I G) as C1. unfold places in C1. rewrite W, RD in C1. cbn in C1.
    assert (K : In m (started s ++ linkof chan (src m) (links s) ++ outgoing s)) by (apply cn_in; rewrite C1; lia).
    apply in_app_or in K as [K|K]; [auto|]. apply in_app_or in K as [K|K]; [|auto]. right. right. right. unfold linkof in K.
    destruct (chan (src m)) as [c|]; [|easy]. now exists c.
  Qed.
  (** The loop can always go on with the first item of its queue. *)
  Theorem C62_never_stuck s i rd : run src chan lockfree ts s -> ready s = i :: rd -> exists e s' new, step src chan lockfree s e s' /\ ready s' = rd ++ new.
  Proof.
    intros R RD. pose proof (inv_run _ _ _ _ _ Hts R) as [C T F L M SG O]. destruct s as [rd0 lk ou ws h gn ac ca lo ma sa fi]. cbn in RD. subst rd0. destruct i as [c|m|m|t].
    - exists Quiet. eexists. exists []. rewrite app_nil_r. split; [apply reader_waits|reflexivity].
    - destruct (in_dec ed m gn) as [G|G].
      + exists Quiet. eexists. exists []. rewrite app_nil_r. split; [now apply begin_cancelled|reflexivity].
      + destruct (request lockfree ws h m) as [[ws' h'] sa'] eqn:Q. exists Started. eexists. exists []. rewrite app_nil_r. split; [eapply begin; eauto|reflexivity].
    - destruct (in_dec ed m gn) as [G|G].
      + destruct (match h with None => wake_first (remove_waiter m ws) | Some _ => (remove_waiter m ws, []) end) as [ws' w] eqn:Q. destruct (resume src m ac ca) as [ac' ca'] eqn:Z.
        exists Quiet. eexists. exists w. split; [eapply wake_cancelled; eauto|reflexivity].
      + exists Started. eexists. exists []. rewrite app_nil_r. split; [apply wake; [|exact G]|reflexivity].
        destruct (l_why _ _ L m) as [Y|Y]; [cbn; now left|contradiction|exact Y].
    - exists Quiet. eexists. exists []. rewrite app_nil_r. split; [apply local_on|reflexivity].
  Qed.
End theorems.

(** ** Through proxies
    [f1; f2; ..]: the states of the proxies on the way, the first gets the client's messages; [s]: the actor's pool.
    [travels x path s]: what each one writes is what the next one receives (so far). *)
Definition of_task (src : nat -> nat) (x : nat) (l : list nat) : list nat := filter (fun m => Nat.eqb (src m) x) l.
Definition conveyed (src : nat -> nat) (x : nat) (out into : list nat) : Prop := exists rest, of_task src x out = of_task src x into ++ rest.
Fixpoint travels (src : nat -> nat) (x : nat) (path : list fw) (s : st) : Prop :=
  match path with
  | [] => True
  | f :: path' => conveyed src x (written f) (made (match path' with g :: _ => base g | [] => s end)) /\ travels src x path' s
  end.
(** The requests in the order in which the client made them *)
Definition client_made (path : list fw) (s : st) : list nat := made (match path with f :: _ => base f | [] => s end).
(** Each proxy receives the messages of [x] over a channel. *)
Definition is_proxy (src : nat -> nat) (small : nat -> bool) (x : nat) (f : fw) : Prop :=
  exists chan ts, NoDup ts /\ chan x <> None /\ frun src chan small ts f.
Definition lost (path : list fw) (s : st) (a : nat) : Prop := In a (gone s) \/ exists f, In f path /\ (In a (gone (base f)) \/ In a (failed f)).

Section fwd.
  Variables (src : nat -> nat) (chan : nat -> option nat) (small : nat -> bool) (ts : list nat) (x : nat).
  Hypothesis Hts : NoDup ts.
  Hypothesis Hsmall : forall m, src m = x -> small m = true.
  Record FInv (f : fw) : Prop := {
    f_run : run src chan (fun _ => false) ts (base f);
    fi_late : forall m, In m (late f) -> src m <> x;
    f_sub : forall m, In m (written f) -> src m = x -> In m (finished (base f)) /\ ~ In m (failed f);
    f_failed : forall m, In m (failed f) -> src m = x -> In m (finished (base f));
    f_eq : filter (fun m => Nat.eqb (src m) x && negb (mem m (failed f))) (finished (base f)) = of_task src x (written f) }.
  Lemma finished_once s m s' : run src chan (fun _ => false) ts s -> step src chan (fun _ => false) s (Finished m) s' ->
    finished s' = finished s ++ [m] /\ ~ In m (finished s).
  Proof.
    intros R S. pose proof (inv_run _ _ _ _ _ Hts R) as I. destruct (C62_at_most_once src chan _ ts Hts s R) as (N & _). pose proof (i_mutex _ _ _ _ I) as M.
    unfold Mutex in M. inversion S; subst; cbn in *; [|discriminate]. split; [reflexivity|].
    assert (X : forall l, filter (locked (fun _ => false)) l = l) by (intros l; induction l as [|y l IH]; cbn; [|rewrite IH]; reflexivity).
    rewrite !X in M. rewrite M in N. apply NoDup_remove_2 in N. rewrite app_nil_r in N. exact N.
  Qed.
  Lemma quiet_finished s e s' : step src chan (fun _ => false) s e s' -> quiet e -> finished s' = finished s.
  Proof. intros S Q. destruct S; cbn in *; easy. Qed.
  Lemma f_inv f : frun src chan small ts f -> FInv f.
  Proof.
    intros R. induction R as [|f g R IH S].
    - split; cbn; try easy. constructor.
    - destruct IH as [FR FL FS FF FE]. destruct S as [s s' e l fa w S Q|s s' m l fa w S Q|s s' m l fa w S Q|s s' m l fa w S|s m l fa w I|s m l fa w I]; cbn [base late failed written] in *.
      + pose proof (quiet_finished _ _ _ S Q) as E. split; cbn [base late failed written]; rewrite ?E; auto. econstructor; eauto.
      + destruct (finished_once _ _ _ FR S) as (E & N). split; cbn [base late failed written]; auto; [econstructor; eauto| | |].
        * intros y I Y. rewrite E. apply in_app_or in I as [I|[<-|[]]]; [destruct (FS y I Y); split; auto; apply in_or_app; now left|].
          split; [apply in_or_app; right; now left|]. intros Z. apply N. now apply FF.
        * intros y I Y. rewrite E. apply in_or_app. left. now apply FF.
        * rewrite E. unfold of_task in *. rewrite !filter_app, FE. f_equal. cbn [filter]. destruct (Nat.eqb_spec (src m) x) as [Y|Y]; [|reflexivity].
          assert (Z : mem m fa = false) by (apply mem_not; intros Z; apply N; now apply FF). rewrite Z. reflexivity.
      + destruct (finished_once _ _ _ FR S) as (E & N). assert (X : src m <> x) by (intros Y; apply Hsmall in Y; congruence). split; cbn [base late failed written]; auto; [econstructor; eauto| | | |].
        * intros y I. apply in_app_or in I as [I|[<-|[]]]; auto.
        * intros y I Y. rewrite E. destruct (FS y I Y). split; auto. apply in_or_app. now left.
        * intros y I Y. rewrite E. apply in_or_app. left. now apply FF.
        * rewrite E, filter_app, FE. cbn. apply Nat.eqb_neq in X. rewrite X. cbn. apply app_nil_r.
      + destruct (finished_once _ _ _ FR S) as (E & N). split; cbn [base late failed written]; auto; [econstructor; eauto| | |].
        * intros y I Y. rewrite E. destruct (FS y I Y) as (Y1 & Y2). split; [apply in_or_app; now left|]. intros [<-|Z]; auto.
        * intros y [<-|I] Y; rewrite E; apply in_or_app; [right; now left|left; now apply FF].
        * rewrite E, filter_app, <- FE. cbn [filter]. change (mem m (m :: fa)) with (Nat.eqb m m || mem m fa). rewrite Nat.eqb_refl. cbn [orb negb]. rewrite andb_false_r, app_nil_r. apply filter_ext_in. intros y I.
          change (mem y (m :: fa)) with (Nat.eqb y m || mem y fa). destruct (Nat.eqb_spec y m) as [->|]; [contradiction|reflexivity].
      + assert (X : src m <> x) by now apply FL. split; cbn [base late failed written]; auto.
        * intros y Y. apply in_remove in Y as (Y & _). now apply FL.
        * intros y Y YX. apply in_app_or in Y as [Y|[<-|[]]]; [now apply FS|congruence].
        * unfold of_task in *. rewrite filter_app, FE. cbn. apply Nat.eqb_neq in X. rewrite X. symmetry. apply app_nil_r.
      + assert (X : src m <> x) by now apply FL. split; cbn [base late failed written]; auto.
        * intros y Y. apply in_remove in Y as (Y & _). now apply FL.
        * intros y Y YX. destruct (FS y Y YX) as (Y1 & Y2). split; auto. intros [<-|Z]; auto.
        * intros y [<-|Y] YX; [congruence|now apply FF].
        * rewrite <- FE. apply filter_ext. intros y. change (mem y (m :: fa)) with (Nat.eqb y m || mem y fa). destruct (Nat.eqb_spec y m) as [->|]; [|reflexivity]. apply Nat.eqb_neq in X. now rewrite X.
  Qed.
  (** One proxy *)
  Lemma hop f a b : frun src chan small ts f -> chan x <> None -> src a = x -> src b = x -> before a b (made (base f)) -> In b (written f) ->
    before a b (written f) \/ In a (gone (base f)) \/ In a (failed f).
  Proof.
    intros R CH A B BF I. destruct (f_inv f R) as [FR FL FS FF FE]. destruct (FS b I B) as (Ib & Nb).
    assert (ST : exists run, started (base f) = finished (base f) ++ run /\ NoDup (started (base f))).
    { destruct (C62_one_at_a_time src chan _ ts Hts _ FR) as (run & E & _). cbn in E.
      assert (X : forall l, filter (fun _ : nat => true) l = l) by (intros l; induction l as [|y l IH]; cbn; [|rewrite IH]; reflexivity). rewrite !X in E.
      exists run. split; [exact E|]. now destruct (C62_at_most_once src chan _ ts Hts _ FR). }
    destruct ST as (run & E & N).
    assert (S : before a b (started (base f)) \/ In a (gone (base f))).
    { apply (C62_no_overtaking src chan (fun _ => false) ts Hts (base f) a b FR); [split; [congruence|auto]|left; rewrite A; exact CH|exact BF|rewrite E; apply in_or_app; auto]. }
    destruct S as [S|S]; [|auto]. destruct (in_dec ed a (failed f)) as [F|F]; [auto|]. left.
    rewrite E in S, N. apply before_prefix in S; auto. apply (filter_before (fun m => Nat.eqb (src m) x)). fold (of_task src x (written f)). rewrite <- FE. apply before_filter; auto.
    - rewrite A, Nat.eqb_refl. apply mem_not in F. now rewrite F.
    - rewrite B, Nat.eqb_refl. apply mem_not in Nb. now rewrite Nb.
  Qed.
End fwd.

Lemma conveyed_in src x out into b : conveyed src x out into -> src b = x -> In b into -> In b out.
Proof.
  intros (rest & E) B I. assert (J : In b (of_task src x out)); [|now apply filter_In in J].
  rewrite E. apply in_or_app. left. apply filter_In. split; [exact I|]. rewrite B. apply Nat.eqb_refl.
Qed.
Lemma conveyed_before src x out into a b : conveyed src x out into -> NoDup (of_task src x out) -> src a = x -> src b = x -> In b into -> before a b out -> before a b into.
Proof.
  intros (rest & E) N A B I BF. apply (filter_before (fun m => Nat.eqb (src m) x)). fold (of_task src x into). apply (before_prefix _ _ _ rest).
  - now rewrite <- E.
  - rewrite <- E. apply before_filter; auto; rewrite ?A, ?B; apply Nat.eqb_refl.
  - apply filter_In. split; [exact I|]. rewrite B. apply Nat.eqb_refl.
Qed.

Lemma written_once src chan small ts x f : NoDup ts -> (forall m, src m = x -> small m = true) -> frun src chan small ts f -> NoDup (of_task src x (written f)).
Proof.
  intros Hts Hs R. destruct (f_inv src chan small ts x Hts Hs f R) as [FR FL FS FF FE]. rewrite <- FE. apply NoDup_filter.
  destruct (C62_one_at_a_time src chan _ ts Hts _ FR) as (run & E & _). cbn in E.
  assert (X : forall l, filter (fun _ : nat => true) l = l) by (intros l; induction l as [|y l IH]; cbn; [|rewrite IH]; reflexivity). rewrite !X in E.
  destruct (C62_at_most_once src chan _ ts Hts _ FR) as (N & _). rewrite E in N. clear -N. induction (finished (base f)) as [|y l IH]; [constructor|].
  cbn in N. inversion N; subst. constructor; [|auto]. intros I. apply H1. apply in_or_app. now left.
Qed.
(** No overtaking on the way through any number of proxies, when none of the task's messages is large: a call that has
    started was preceded by all earlier ones, except those that were lost on the way. *)
Theorem C62_through_proxies_partial src chan lockfree ts small path s a b : NoDup ts -> run src chan lockfree ts s -> chan (src a) <> None ->
  Forall (is_proxy src small (src a)) path -> travels src (src a) path s -> (forall m, src m = src a -> small m = true) ->
  same_task src lockfree a b -> before a b (client_made path s) -> In b (started s) -> before a b (started s) \/ lost path s a.
Proof.
  intros Hts R CH P T Hs (E & LA & LB) BF I.
  assert (K : forall path, Forall (is_proxy src small (src a)) path -> travels src (src a) path s -> before a b (client_made path s) ->
    (In b (client_made path s) /\ before a b (made s)) \/ lost path s a).
  { clear P T BF path. intros path. induction path as [|f path IH]; intros P T BF.
    - left. cbn in *. split; [now apply before_in in BF|exact BF].
    - inversion P as [|f' path' (ch & ts' & N & CX & FR) P']; subst. destruct T as (T1 & T2).
      assert (Ib : In b (client_made path s)).
      { clear -T2 I R Hts E P' Hs. 
        assert (Im : In b (made s)) by (destruct (C62_at_most_once src chan lockfree ts Hts s R) as (_ & Y); now apply Y).
        revert T2 P'. induction path as [|g path IH]; cbn; intros T2 P'; [exact Im|]. destruct T2 as (T1 & T2).
        inversion P' as [|g' path' (ch & ts' & N & CX & FR) P'']; subst. specialize (IH T2 P'').
        pose proof (conveyed_in src (src a) _ _ b T1 (eq_sym E) IH) as W. destruct (f_inv src ch small ts' (src a) N Hs g FR) as [GR _ GS _ _].
        destruct (GS b W (eq_sym E)) as (Y & _). destruct (C62_one_at_a_time src ch _ ts' N _ GR) as (run & Z & _).
        assert (X : forall l, filter (fun _ : nat => true) l = l) by (intros l; induction l as [|y l IHl]; cbn; [|rewrite IHl]; reflexivity). cbn in Z. rewrite !X in Z.
        destruct (C62_at_most_once src ch _ ts' N _ GR) as (_ & Q). apply Q. rewrite Z. apply in_or_app. now left. }
      pose proof (conveyed_in src (src a) _ _ b T1 (eq_sym E) Ib) as Wb.
      destruct (hop src ch small ts' (src a) N Hs f a b FR CX eq_refl (eq_sym E) BF Wb) as [H|H]; [|right; right; exists f; split; [now left|exact H]].
      pose proof (conveyed_before src (src a) _ _ a b T1 (written_once src ch small ts' (src a) f N Hs FR) eq_refl (eq_sym E) Ib H) as B2.
      destruct (IH P' T2 B2) as [(J1 & J2)|J].
      + left. split; [now apply before_in in BF|exact J2].
      + right. destruct J as [J|(g & J1 & J2)]; [now left|]. right. exists g. split; [now right|exact J2]. }
  destruct (K path P T BF) as [(_ & B)|L]; [|now right].
  destruct (C62_no_overtaking src chan lockfree ts Hts s a b R) as [S|S]; auto; [split; auto|now left|right; now left].
Qed.

(** ** Examples, and where it fails *)
Module Demo.
  (** Requests below 10 are made by task 7 over channel 0, the others by task 8 of the pool's own process.  The methods of 5 and 15 are marked no_lock. *)
  Definition src (m : nat) : nat := if m <? 10 then 7 else 8.
  Definition chan (x : nat) : option nat := if x =? 7 then Some 0 else None.
  Definition lockfree (m : nat) : bool := (m =? 5) || (m =? 15).
  Ltac look := first [reflexivity | discriminate | (cbn; intuition discriminate) | (cbn; intuition congruence) | (cbn; now auto 10)].
  Lemma ts_nodup : NoDup [8]. Proof. constructor; [easy|constructor]. Qed.

  (** Task 7 makes 1, 2 and 3 one after the other; 2 is cancelled while it waits for 1; task 8 has told 11 in between. *)
  Example a_run : exists s, run src chan lockfree [8] s /\ made s = [1; 2; 11; 3] /\ started s = [1; 11; 3] /\ finished s = [1; 11] /\ gone s = [2] /\
    awaits chan s 7 /\ awaits chan s 8 /\ before 1 3 (made s).
  Proof.
    pose proof (run_init src chan lockfree [8]) as R. unfold init in R.
    eapply run_step in R; [|eapply (make_remote _ _ _ _ _ _ _ _ _ _ _ _ _ _ _ 1); look].
    eapply run_step in R; [|eapply (write _ _ _ _ _ _ _ _ _ _ _ _ _ _ _ 1); look].
    eapply run_step in R; [|eapply (make_remote _ _ _ _ _ _ _ _ _ _ _ _ _ _ _ 2); look].
    eapply run_step in R; [|eapply (write _ _ _ _ _ _ _ _ _ _ _ _ _ _ _ 2); look].
    eapply run_step in R; [|eapply (reader_ready _ _ _ _ _ _ _ _ _ _ _ _ _ _ _ 0); look].
    eapply run_step in R; [|eapply reader_takes; look]. cbn [app] in R.
    eapply run_step in R; [|eapply begin; look]. cbn [app] in R.
    eapply run_step in R; [|eapply reader_takes; look]. cbn [app] in R.
    eapply run_step in R; [|eapply begin; look]. cbn [app] in R.
    eapply run_step in R; [|eapply (tell _ _ _ _ _ _ _ _ _ _ _ _ _ _ _ 11 [] []); look]. cbn [app] in R.
    eapply run_step in R; [|eapply (cancel_pending _ _ _ _ _ _ _ _ _ _ _ _ _ _ _ 2); look]. cbn in R.
    eapply run_step in R; [|eapply (make_remote _ _ _ _ _ _ _ _ _ _ _ _ _ _ _ 3); look].
    eapply run_step in R; [|eapply (write _ _ _ _ _ _ _ _ _ _ _ _ _ _ _ 3); look]. cbn [app] in R.
    eapply run_step in R; [|eapply reader_takes; look]. cbn [app] in R.
    eapply run_step in R; [|eapply begin; look]. cbn [app] in R.
    eapply run_step in R; [|eapply local_on; look]. cbn [app] in R.
    eapply run_step in R; [|eapply finish; look]. cbn [app] in R.
    eapply run_step in R; [|eapply wake_cancelled; look]. cbn [app] in R.
    eapply run_step in R; [|eapply begin; look]. cbn [app] in R.
    eapply run_step in R; [|eapply reader_waits; look].
    eapply run_step in R; [|eapply wake; look]. cbn [app] in R.
    eapply run_step in R; [|eapply finish; look]. cbn [app] in R.
    eapply run_step in R; [|eapply wake; look]. cbn [app] in R.
    eexists. split; [exact R|]. cbn. split; [reflexivity|]. repeat split; try reflexivity.
    - left. discriminate.
    - right. easy.
    - now exists [], [2; 11], [].
  Qed.
  (** A method marked no_lock does not wait: it may overtake (this is what the mark is for). *)
  Example no_lock_overtakes : exists s, run src chan lockfree [8] s /\ made s = [1; 2; 5] /\ started s = [1; 5].
  Proof.
    pose proof (run_init src chan lockfree [8]) as R. unfold init in R.
    eapply run_step in R; [|eapply (make_remote _ _ _ _ _ _ _ _ _ _ _ _ _ _ _ 1); look].
    eapply run_step in R; [|eapply (write _ _ _ _ _ _ _ _ _ _ _ _ _ _ _ 1); look].
    eapply run_step in R; [|eapply (make_remote _ _ _ _ _ _ _ _ _ _ _ _ _ _ _ 2); look].
    eapply run_step in R; [|eapply (write _ _ _ _ _ _ _ _ _ _ _ _ _ _ _ 2); look].
    eapply run_step in R; [|eapply (make_remote _ _ _ _ _ _ _ _ _ _ _ _ _ _ _ 5); look].
    eapply run_step in R; [|eapply (write _ _ _ _ _ _ _ _ _ _ _ _ _ _ _ 5); look].
    eapply run_step in R; [|eapply (reader_ready _ _ _ _ _ _ _ _ _ _ _ _ _ _ _ 0); look].
    eapply run_step in R; [|eapply reader_takes; look]. cbn [app] in R.
    eapply run_step in R; [|eapply begin; look]. cbn [app] in R.
    eapply run_step in R; [|eapply reader_takes; look]. cbn [app] in R.
    eapply run_step in R; [|eapply begin; look]. cbn [app] in R.
    eapply run_step in R; [|eapply reader_takes; look]. cbn [app] in R.
    eapply run_step in R; [|eapply begin; look]. cbn [app] in R.
    eexists. split; [exact R|]. cbn. auto.
  Qed.
  (** A tell that is not awaited, then a call *)
  Lemma not_awaited : exists s, run src chan lockfree [8] s /\ made s = [11; 12] /\ started s = [12] /\ gone s = [].
  Proof.
    pose proof (run_init src chan lockfree [8]) as R. unfold init in R.
    eapply run_step in R; [|eapply (tell_only _ _ _ _ _ _ _ _ _ _ _ _ _ _ _ 11); look]. cbn [app] in R.
    eapply run_step in R; [|eapply (call _ _ _ _ _ _ _ _ _ _ _ _ _ _ _ 12 [] []); look]. cbn [app] in R.
    eexists. split; [exact R|]. cbn. auto.
  Qed.
  (** One proxy; 1 is large, 2 is not. *)
  Definition small (m : nat) : bool := negb (m =? 1).
  Lemma proxy_reorders : exists f, frun src chan small [] f /\ made (base f) = [1; 2] /\ written f = [2; 1] /\ gone (base f) = [] /\ failed f = [].
  Proof.
    pose proof (frun_init src chan small []) as R. unfold init in R.
    eapply frun_step in R; [|eapply f_quiet; [eapply (make_remote _ _ _ _ _ _ _ _ _ _ _ _ _ _ _ 1); look|exact I]].
    eapply frun_step in R; [|eapply f_quiet; [eapply (write _ _ _ _ _ _ _ _ _ _ _ _ _ _ _ 1); look|exact I]].
    eapply frun_step in R; [|eapply f_quiet; [eapply (make_remote _ _ _ _ _ _ _ _ _ _ _ _ _ _ _ 2); look|exact I]].
    eapply frun_step in R; [|eapply f_quiet; [eapply (write _ _ _ _ _ _ _ _ _ _ _ _ _ _ _ 2); look|exact I]].
    eapply frun_step in R; [|eapply f_quiet; [eapply (reader_ready _ _ _ _ _ _ _ _ _ _ _ _ _ _ _ 0); look|exact I]]. cbn [app] in R.
    eapply frun_step in R; [|eapply f_quiet; [eapply reader_takes; look|exact I]]. cbn [app] in R.
    eapply frun_step in R; [|eapply f_quiet; [eapply begin; look|exact I]]. cbn [app] in R.
    eapply frun_step in R; [|eapply f_thread; [eapply finish; look|look]]. cbn [app] in R.
    eapply frun_step in R; [|eapply f_quiet; [eapply reader_takes; look|exact I]]. cbn [app] in R.
    eapply frun_step in R; [|eapply f_quiet; [eapply begin; look|exact I]]. cbn [app] in R.
    eapply frun_step in R; [|eapply f_write; [eapply finish; look|look]]. cbn [app] in R.
    eapply frun_step in R; [|eapply (f_late _ _ _ _ 1); look]. cbn [app] in R.
    eexists. split; [exact R|]. cbn. auto.
  Qed.
  Lemma behind_the_proxy : exists s, run src chan lockfree [] s /\ made s = [2; 1] /\ started s = [2; 1] /\ gone s = [].
  Proof.
    pose proof (run_init src chan lockfree []) as R. unfold init in R.
    eapply run_step in R; [|eapply (make_remote _ _ _ _ _ _ _ _ _ _ _ _ _ _ _ 2); look].
    eapply run_step in R; [|eapply (write _ _ _ _ _ _ _ _ _ _ _ _ _ _ _ 2); look].
    eapply run_step in R; [|eapply (make_remote _ _ _ _ _ _ _ _ _ _ _ _ _ _ _ 1); look].
    eapply run_step in R; [|eapply (write _ _ _ _ _ _ _ _ _ _ _ _ _ _ _ 1); look].
    eapply run_step in R; [|eapply (reader_ready _ _ _ _ _ _ _ _ _ _ _ _ _ _ _ 0); look].
    eapply run_step in R; [|eapply reader_takes; look]. cbn [app] in R.
    eapply run_step in R; [|eapply begin; look]. cbn [app] in R.
    eapply run_step in R; [|eapply finish; look]. cbn [app] in R.
    eapply run_step in R; [|eapply reader_takes; look]. cbn [app] in R.
    eapply run_step in R; [|eapply begin; look]. cbn [app] in R.
    eexists. split; [exact R|]. cbn. auto.
  Qed.
  (** A small task through the same proxy meets the hypotheses of the theorem. *)
  Example through_one_proxy : exists f s, is_proxy src (fun _ => true) 7 f /\ run src chan lockfree [] s /\ travels src 7 [f] s /\ client_made [f] s = [1; 2] /\ started s = [1; 2].
  Proof.
    pose proof (frun_init src chan (fun _ => true) []) as R. unfold init in R.
    eapply frun_step in R; [|eapply f_quiet; [eapply (make_remote _ _ _ _ _ _ _ _ _ _ _ _ _ _ _ 1); look|exact I]].
    eapply frun_step in R; [|eapply f_quiet; [eapply (write _ _ _ _ _ _ _ _ _ _ _ _ _ _ _ 1); look|exact I]].
    eapply frun_step in R; [|eapply f_quiet; [eapply (make_remote _ _ _ _ _ _ _ _ _ _ _ _ _ _ _ 2); look|exact I]].
    eapply frun_step in R; [|eapply f_quiet; [eapply (write _ _ _ _ _ _ _ _ _ _ _ _ _ _ _ 2); look|exact I]].
    eapply frun_step in R; [|eapply f_quiet; [eapply (reader_ready _ _ _ _ _ _ _ _ _ _ _ _ _ _ _ 0); look|exact I]]. cbn [app] in R.
    eapply frun_step in R; [|eapply f_quiet; [eapply reader_takes; look|exact I]]. cbn [app] in R.
    eapply frun_step in R; [|eapply f_quiet; [eapply begin; look|exact I]]. cbn [app] in R.
    eapply frun_step in R; [|eapply f_quiet; [eapply reader_takes; look|exact I]]. cbn [app] in R.
    eapply frun_step in R; [|eapply f_quiet; [eapply begin; look|exact I]]. cbn [app] in R.
    eapply frun_step in R; [|eapply f_write; [eapply finish; look|look]]. cbn [app] in R.
    eapply frun_step in R; [|eapply f_quiet; [eapply reader_waits|exact I]]. cbn [app] in R.
    eapply frun_step in R; [|eapply f_quiet; [eapply wake; look|exact I]]. cbn [app] in R.
    eapply frun_step in R; [|eapply f_write; [eapply finish; look|look]]. cbn [app] in R.
    pose proof (run_init src chan lockfree []) as Q. unfold init in Q.
    eapply run_step in Q; [|eapply (make_remote _ _ _ _ _ _ _ _ _ _ _ _ _ _ _ 1); look].
    eapply run_step in Q; [|eapply (write _ _ _ _ _ _ _ _ _ _ _ _ _ _ _ 1); look].
    eapply run_step in Q; [|eapply (make_remote _ _ _ _ _ _ _ _ _ _ _ _ _ _ _ 2); look].
    eapply run_step in Q; [|eapply (write _ _ _ _ _ _ _ _ _ _ _ _ _ _ _ 2); look].
    eapply run_step in Q; [|eapply (reader_ready _ _ _ _ _ _ _ _ _ _ _ _ _ _ _ 0); look].
    eapply run_step in Q; [|eapply reader_takes; look]. cbn [app] in Q.
    eapply run_step in Q; [|eapply begin; look]. cbn [app] in Q.
    eapply run_step in Q; [|eapply finish; look]. cbn [app] in Q.
    eapply run_step in Q; [|eapply reader_takes; look]. cbn [app] in Q.
    eapply run_step in Q; [|eapply begin; look]. cbn [app] in Q.
    do 2 eexists. split; [exists chan, []; split; [constructor|split; [discriminate|exact R]]|]. split; [exact Q|]. cbn. repeat split; try reflexivity. now exists [].
  Qed.
End Demo.

(** Tells that are not awaited are overtaken by a later call of the same task (local references only). *)
Theorem C62_unawaited_tell_refuted : ~ claim.
Proof.
  intros C. destruct Demo.not_awaited as (s & R & M & S & G). specialize (C _ _ _ _ s 11 12 Demo.ts_nodup R). rewrite M, S, G in C.
  destruct C as [(p & q & r & E)|[]]; [repeat split; reflexivity|now exists [], [], []|now left|]. destruct p as [|x p]; [discriminate|]. destruct p; destruct q; discriminate.
Qed.
(** Through a proxy, a message of more than 100 objects is overtaken by a smaller one which the same task sent later. *)
Definition claim_proxies : Prop := forall src chan lockfree ts small path s a b, NoDup ts -> run src chan lockfree ts s -> chan (src a) <> None ->
  Forall (is_proxy src small (src a)) path -> travels src (src a) path s ->
  same_task src lockfree a b -> before a b (client_made path s) -> In b (started s) -> before a b (started s) \/ lost path s a.
Theorem C62_large_message_refuted : ~ claim_proxies.
Proof.
  intros C. destruct Demo.proxy_reorders as (f & FR & FM & FW & FG & FF). destruct Demo.behind_the_proxy as (s & R & M & S & G).
  specialize (C Demo.src Demo.chan Demo.lockfree [] Demo.small [f] s 1 2 (NoDup_nil _) R). unfold client_made in C. rewrite FM, S in C.
  destruct C as [(p & q & r & E)|[L|(g & [<-|[]] & L)]].
  - discriminate.
  - constructor; [|constructor]. exists Demo.chan, []. split; [constructor|split; [discriminate|exact FR]].
  - split; [|exact I]. unfold conveyed. rewrite FW, M. now exists [].
  - repeat split; reflexivity.
  - now exists [], [], [].
  - now left.
  - destruct p as [|x [|y [|z p]]]; destruct q as [|u q]; cbn in E; try discriminate; try (destruct q; discriminate). 
  - rewrite G in L. easy.
  - rewrite FG, FF in L. destruct L; easy.
Qed.

Print Assumptions C62_no_overtaking.
Print Assumptions C62_at_most_once.
Print Assumptions C62_prefix.
Print Assumptions C62_one_at_a_time.
Print Assumptions C62_nothing_forgotten.
Print Assumptions C62_never_stuck.
Print Assumptions C62_through_proxies_partial.
Print Assumptions C62_unawaited_tell_refuted.
Print Assumptions C62_large_message_refuted.
