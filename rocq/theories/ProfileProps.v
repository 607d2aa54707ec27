(** * C32: the profile lists the slowest calls and the most frequent ones

    How to read.  A history lists the calls of the profiler, newest first.  [since t h]:
    the threshold given to the last [init] of task [t] not followed by a [pop] of it,
    and the actor calls (sends and tells) since, oldest first.  [slow_ones thr cs]: the
    calls that take at least the threshold.  [as_slow c l]: how many calls of [l] take at
    least as long as [c].

    Claim: after [pop], each slow call among the ten slowest is listed with its duration.
    It is false: a full heap drops its least item even if the new call is faster, and calls
    with the same label overwrite each other, the fastest one winning.  What holds: with
    distinct labels the nine slowest are always listed, and all ten if there are at most
    ten slow calls, or if the last slow call is among the ten slowest. *)
From Coq Require Import List Bool Arith ZArith Lia Permutation Sorted.
From Verif Require Import Dict ProfileModel.
Import ListNotations.
Open Scope Z_scope.

(** ** Specification *)
Fixpoint since (t : nat) (h : list op) : option (Z * list call) :=
  match h with
  | [] => None
  | Init t' thr :: h => if (t' =? t)%nat then Some (thr, []) else since t h
  | Pop t' :: h => if (t' =? t)%nat then None else since t h
  | Call Other _ :: h => since t h
  | Call _ c :: h => match since t h with Some (thr, cs) => Some (thr, cs ++ [c]) | None => None end
  end.
Definition slow_ones (thr : Z) (cs : list call) : list call := filter (fun c => thr <=? duration c) cs.
Definition as_slow (c : call) (l : list call) : nat := length (filter (fun x => duration c <=? duration x) l).
Definition times_called (k : nat) (cs : list call) : nat := length (filter (fun c => (key c =? k)%nat) cs).

Definition popped (t : nat) (h : list op) (most : list (nat * nat)) (slows : list (nat * Z)) : Prop :=
  exists d d', reach d h /\ step d (Pop t) = (d', Some (most, slows)).

Definition C32_claim : Prop := forall t h most slows thr cs c,
  popped t h most slows -> since t h = Some (thr, cs) ->
  In c (slow_ones thr cs) -> (as_slow c (slow_ones thr cs) <= 10)%nat ->
  In (label c, duration c) slows.

(** ** Proofs *)
Lemma nat_spec : forall a b, reflect (a = b) (a =? b)%nat.
Proof. intros a b. apply Nat.eqb_spec. Qed.

Definition run (thr : Z) (cs : list call) : stats := fold_left collect cs (new_stats thr).

Lemma gget_map (d : tasks) c t :
  gget Nat.eqb (map (fun p => (fst p, collect (snd p) c)) d) t = match gget Nat.eqb d t with Some s => Some (collect s c) | None => None end.
Proof. induction d as [|[t' s] d IH]; cbn; auto. destruct (t' =? t)%nat; auto. Qed.

Lemma state_ok d h : reach d h -> forall t,
  gget Nat.eqb d t = match since t h with Some (thr, cs) => Some (run thr cs) | None => None end.
Proof.
  induction 1 as [|d h o d' r R IH ST]; intros t; auto.
  destruct o as [t' thr|t'|m c]; cbn [step since] in *.
  - inversion ST; subst. rewrite (gget_gset _ nat_spec). destruct (t' =? t)%nat; auto.
  - inversion ST; subst. rewrite (gget_gdel _ nat_spec). destruct (t' =? t)%nat; auto.
  - destruct m; inversion ST; subst; auto; rewrite gget_map, IH; destruct (since t h) as [[thr cs]|]; auto;
      unfold run; now rewrite fold_left_app.
Qed.

Definition entries (l : list call) : list (nat * Z) := fold_left (fun d c => gset Nat.eqb d (label c) (duration c)) l [].
Lemma popped_ok t h most slows : popped t h most slows ->
  exists thr cs, since t h = Some (thr, cs) /\
    most = firstn 10 (sort_desc (counter (run thr cs))) /\ slows = entries (rev (slow (run thr cs))).
Proof.
  intros (d & d' & R & ST). cbn [step] in ST. rewrite (state_ok _ _ R t) in ST.
  destruct (since t h) as [[thr cs]|]; [|discriminate]. exists thr, cs. split; auto. now inversion ST.
Qed.

(** *** The heap *)
Definition le_dur (a b : call) : Prop := duration a <= duration b.
Lemma push_perm x l : Permutation (push x l) (x :: l).
Proof. induction l as [|y l IH]; auto. cbn [push]. destruct (item_leb x y); auto. rewrite IH. apply perm_swap. Qed.
Lemma push_sorted x l : StronglySorted le_dur l -> StronglySorted le_dur (push x l).
Proof.
  induction 1 as [|y l S IH F]; [repeat constructor|]. cbn [push]. destruct (item_leb x y) eqn:E.
  - constructor; [constructor; auto|]. assert (L : le_dur x y).
    { unfold item_leb in E. unfold le_dur. apply orb_true_iff in E. destruct E as [E|E]; [apply Z.ltb_lt in E; lia|].
      apply andb_true_iff in E. destruct E as [E _]. apply Z.eqb_eq in E. lia. }
    constructor; auto. eapply Forall_impl; [|exact F]. unfold le_dur in *. intros; lia.
  - constructor; auto. rewrite push_perm. constructor; auto.
    unfold item_leb in E. unfold le_dur. apply orb_false_iff in E. destruct E as [E _]. apply Z.ltb_ge in E. lia.
Qed.

(** Kept and dropped calls *)
Definition Kept (kept ss : list call) : Prop :=
  StronglySorted le_dur kept /\ length kept = Nat.min 10 (length ss) /\
  exists dropped, Permutation (kept ++ dropped) ss /\
    forall d n, In d dropped -> In n (tl kept) -> le_dur d n.

Lemma kept_push kept ss x : Kept kept ss ->
  Kept (if (length kept <? 10)%nat then push x kept else match kept with [] => [] | _ :: l => push x l end) (ss ++ [x]).
Proof.
  intros (S & L & dr & P & B). assert (PL := Permutation_length P). rewrite app_length in PL.
  destruct (Nat.ltb_spec (length kept) 10) as [LT|GE].
  - assert (dr = []) by (apply length_zero_iff_nil; lia). subst. rewrite app_nil_r in P.
    split; [now apply push_sorted|]. split; [rewrite (Permutation_length (push_perm x kept)), app_length; cbn [length]; lia|].
    exists []. split; [|intros ? ? []]. rewrite app_nil_r, push_perm, P. apply Permutation_cons_append.
  - destruct kept as [|y rest]; [cbn in GE; lia|]. inversion S as [|? ? S' F]; subst. rewrite Forall_forall in F. cbn [tl] in B.
    split; [now apply push_sorted|]. split; [rewrite (Permutation_length (push_perm x rest)), app_length; cbn [length] in *; lia|].
    exists (y :: dr). split.
    + rewrite push_perm, <- Permutation_cons_append. cbn [app]. constructor. rewrite <- Permutation_middle. exact P.
    + intros d n Id In_.
      assert (R : forall m, In m rest -> le_dur d m) by (intros m Im; destruct Id as [<-|Id]; auto).
      destruct rest as [|r0 rest]; cbn [push] in In_; [cbn in In_; contradiction|].
      destruct (item_leb x r0) eqn:E; cbn [tl] in In_; auto.
      rewrite push_perm in In_. destruct In_ as [<-|In_]; [|apply R; cbn; auto].
      assert (le_dur d r0) by (apply R; cbn; auto). unfold item_leb in E. apply orb_false_iff in E. destruct E as [E _].
      apply Z.ltb_ge in E. unfold le_dur in *. lia.
Qed.

Lemma run_ok thr cs : threshold (run thr cs) = thr /\ Kept (slow (run thr cs)) (slow_ones thr cs).
Proof.
  unfold run. induction cs as [|c cs [TH K]] using rev_ind.
  - split; auto. split; [constructor|]. split; auto. exists []. split; auto. intros ? ? [].
  - rewrite fold_left_app. cbn [fold_left]. set (s := fold_left collect cs (new_stats thr)) in *.
    unfold collect. unfold slow_ones. rewrite filter_app. cbn [filter]. rewrite TH.
    destruct (Z.ltb_spec (duration c) thr) as [LT|GE]; destruct (Z.leb_spec thr (duration c)); try lia; cbn [threshold slow].
    + split; auto. now rewrite app_nil_r.
    + split; auto. apply (kept_push (slow s) _ c K).
Qed.

(** *** The dictionary of labels *)
Lemma entries_snoc l c : entries (l ++ [c]) = gset Nat.eqb (entries l) (label c) (duration c).
Proof. unfold entries. now rewrite fold_left_app. Qed.
Lemma entries_get l k : gget Nat.eqb (entries l) k =
  match find (fun c => (label c =? k)%nat) (rev l) with Some c => Some (duration c) | None => None end.
Proof.
  induction l as [|c l IH] using rev_ind; auto. rewrite entries_snoc, (gget_gset _ nat_spec), rev_app_distr. cbn [app rev find].
  destruct (label c =? k)%nat; auto.
Qed.
Lemma entries_in l k v : In (k, v) (entries l) <-> gget Nat.eqb (entries l) k = Some v.
Proof.
  split; [|apply gget_In; apply nat_spec]. apply gIn_get; [apply nat_spec|].
  induction l as [|c l IH] using rev_ind; [constructor|]. rewrite entries_snoc. apply NoDup_gset; auto. apply nat_spec.
Qed.

(** Which entries there are: for each label the fastest of the kept calls with it. *)
Lemma slows_ok kept k v : StronglySorted le_dur kept ->
  (In (k, v) (entries (rev kept)) <->
   exists c, In c kept /\ label c = k /\ duration c = v /\ forall c', In c' kept -> label c' = k -> v <= duration c').
Proof.
  intros S. rewrite entries_in, entries_get, rev_involutive. induction S as [|y l S IH F]; cbn [find].
  - split; [discriminate|]. intros (c & [] & _).
  - rewrite Forall_forall in F. destruct (Nat.eqb_spec (label y) k) as [E|N].
    + split.
      * intros X. inversion X; subst. exists y. cbn. repeat split; auto. intros c' [<-|I'] _; [lia|]. apply F; auto.
      * intros (c & Ic & EK & EV & M). f_equal. destruct Ic as [<-|Ic]; auto.
        assert (v <= duration y) by (apply M; cbn; auto). specialize (F c Ic). unfold le_dur in F. lia.
    + rewrite IH. split.
      * intros (c & Ic & EK & EV & M). exists c. cbn. repeat split; auto. intros c' [<-|I'] EL; [contradiction|]. auto.
      * intros (c & [<-|Ic] & EK & EV & M); [contradiction|]. exists c. repeat split; auto. intros; apply M; cbn; auto.
Qed.

Lemma as_slow_perm c a b : Permutation a b -> as_slow c a = as_slow c b.
Proof.
  intros P. unfold as_slow. induction P; cbn [filter]; auto.
  - destruct (duration c <=? duration x); cbn; auto.
  - destruct (duration c <=? duration x); destruct (duration c <=? duration y); cbn; auto.
  - congruence.
Qed.
Lemma as_slow_app c a b : as_slow c (a ++ b) = (as_slow c a + as_slow c b)%nat.
Proof. unfold as_slow. now rewrite filter_app, app_length. Qed.
Lemma as_slow_all c l : (forall x, In x l -> le_dur c x) -> as_slow c l = length l.
Proof.
  intros H. unfold as_slow. induction l as [|x l IH]; auto. cbn [filter]. destruct (Z.leb_spec (duration c) (duration x)).
  - cbn [length]. f_equal. apply IH. intros; apply H; cbn; auto.
  - specialize (H x (or_introl eq_refl)). unfold le_dur in H. lia.
Qed.
Lemma as_slow_self c l : In c l -> (1 <= as_slow c l)%nat.
Proof.
  unfold as_slow. induction l as [|x l IH]; intros []; cbn [filter].
  - subst. rewrite Z.leb_refl. cbn. lia.
  - specialize (IH H). destruct (duration c <=? duration x); cbn; lia.
Qed.

(** A dropped call has at least nine others as slow. *)
Lemma kept_nine kept ss c : Kept kept ss -> In c ss -> (as_slow c ss <= 9)%nat -> In c kept.
Proof.
  intros (S & L & dr & P & B) I0 N. apply (Permutation_in c (Permutation_sym P)) in I0. apply in_app_or in I0.
  destruct I0 as [I0|I0]; auto. exfalso.
  assert (PL := Permutation_length P). rewrite app_length in PL.
  assert (1 <= length dr)%nat by (destruct dr; [destruct I0|cbn; lia]).
  rewrite <- (as_slow_perm c _ _ P), as_slow_app in N. assert (1 <= as_slow c dr)%nat by now apply as_slow_self.
  destruct kept as [|y rest]; [cbn [length] in *; destruct (length ss); cbn [Nat.min] in L; lia|]. cbn [tl] in B.
  change (y :: rest) with ([y] ++ rest) in N. rewrite as_slow_app, (as_slow_all c rest) in N by auto. cbn [length] in L, PL. lia.
Qed.

(** If the newest call is among the ten slowest, so are all kept ones. *)
Lemma kept_ten kept ss x : Kept kept ss -> forall kept',
  kept' = (if (length kept <? 10)%nat then push x kept else match kept with [] => [] | _ :: l => push x l end) ->
  (as_slow x (ss ++ [x]) <= 10)%nat -> forall c, In c (ss ++ [x]) -> (as_slow c (ss ++ [x]) <= 10)%nat -> In c kept'.
Proof.
  intros (S & L & dr & P & B) kept' E NX c I0 N. assert (PL := Permutation_length P). rewrite app_length in PL.
  destruct (Nat.ltb_spec (length kept) 10) as [LT|GE].
  - assert (dr = []) by (apply length_zero_iff_nil; lia). subst. rewrite app_nil_r in P. rewrite push_perm, P.
    apply in_app_or in I0. cbn in I0. cbn [In]. tauto.
  - destruct kept as [|y rest]; [cbn in GE; lia|]. subst. inversion S as [|? ? S' F]; subst. rewrite Forall_forall in F. cbn [tl] in B.
    rewrite push_perm. apply in_app_or in I0. destruct I0 as [I0|[->|[]]]; [|cbn; auto].
    apply (Permutation_in c (Permutation_sym P)) in I0. apply in_app_or in I0. cbn [In] in I0. cbn [In].
    assert (X : c = y \/ In c dr -> In c rest \/ x = c).
    { intros D. exfalso.
      assert (R : forall m, In m rest -> le_dur c m) by (intros m Im; destruct D as [->|D]; auto).
      assert (PP : Permutation (ss ++ [x]) (rest ++ (y :: dr) ++ [x])).
      { rewrite (app_assoc rest). apply Permutation_app_tail. rewrite <- P. cbn [app]. apply Permutation_middle. }
      rewrite (as_slow_perm _ _ _ PP), !as_slow_app in N; rewrite (as_slow_perm _ _ _ PP), !as_slow_app in NX.
      assert (1 <= as_slow c (y :: dr))%nat by (apply as_slow_self; cbn; destruct D; auto).
      rewrite (as_slow_all c rest) in N by auto. cbn [length] in L, GE.
      destruct (Z.le_gt_cases (duration c) (duration x)) as [LE|GT].
      - assert (as_slow c [x] = 1%nat) by (apply as_slow_all; intros z [<-|[]]; exact LE). lia.
      - rewrite (as_slow_all x rest) in NX by (intros m Im; specialize (R m Im); unfold le_dur in *; lia).
        assert (as_slow x [x] = 1%nat) by (apply as_slow_all; intros z [<-|[]]; unfold le_dur; lia).
        assert (as_slow x (y :: dr) <> 0)%nat; [|lia].
        intros Z0. assert (ID : In c (y :: dr)) by (cbn; destruct D; auto). unfold as_slow in Z0. apply length_zero_iff_nil in Z0.
        assert (Hf : In c (filter (fun x0 => duration x <=? duration x0) (y :: dr))) by (apply filter_In; split; [auto|apply Z.leb_le; lia]).
        rewrite Z0 in Hf. destruct Hf. }
    destruct I0 as [[<-|I0]|I0]; [destruct X as [X|X]; auto| |destruct X as [X|X]; auto]; auto.
Qed.

Lemma nodup_label kept dr ss (P : Permutation (kept ++ dr) ss) : NoDup (map label ss) ->
  forall c c', In c kept -> In c' kept -> label c = label c' -> c = c'.
Proof.
  intros ND c c' I1 I2 E.
  assert (J1 : In c ss) by (apply (Permutation_in c P), in_or_app; auto).
  assert (J2 : In c' ss) by (apply (Permutation_in c' P), in_or_app; auto). clear I1 I2.
  clear P. induction ss as [|z ss IH]; [destruct J1|]. cbn [map] in ND. inversion ND as [|? ? NI ND']; subst.
  destruct J1 as [->|J1]; destruct J2 as [->|J2]; auto.
  - elim NI. rewrite E. now apply in_map.
  - elim NI. rewrite <- E. now apply in_map.
Qed.

Lemma kept_listed kept ss c : Kept kept ss -> NoDup (map label ss) -> In c kept -> In (label c, duration c) (entries (rev kept)).
Proof.
  intros (S & L & dr & P & B) ND I0. apply slows_ok; auto. exists c. repeat split; auto.
  intros c' I' E. rewrite (nodup_label _ _ _ P ND c' c I' I0 E). lia.
Qed.

(** ** The property *)

(** The nine slowest calls are listed, if labels differ. *)
Theorem C32_nine_slowest_listed_partial t h most slows thr cs c :
  popped t h most slows -> since t h = Some (thr, cs) -> NoDup (map label (slow_ones thr cs)) ->
  In c (slow_ones thr cs) -> (as_slow c (slow_ones thr cs) <= 9)%nat ->
  In (label c, duration c) slows.
Proof.
  intros PP S ND I0 N. destruct (popped_ok _ _ _ _ PP) as (thr' & cs' & S' & E1 & E2). rewrite S in S'. inversion S'; subst.
  destruct (run_ok thr' cs') as [_ K]. eapply kept_listed; eauto. eapply kept_nine; eauto.
Qed.

(** So are all slow calls when there are at most ten. *)
Theorem C32_up_to_ten_listed_partial t h most slows thr cs c :
  popped t h most slows -> since t h = Some (thr, cs) -> NoDup (map label (slow_ones thr cs)) ->
  (length (slow_ones thr cs) <= 10)%nat -> In c (slow_ones thr cs) ->
  In (label c, duration c) slows.
Proof.
  intros PP S ND L I0. destruct (popped_ok _ _ _ _ PP) as (thr' & cs' & S' & E1 & E2). rewrite S in S'. inversion S'; subst.
  destruct (run_ok thr' cs') as [_ K]. eapply kept_listed; eauto.
  destruct K as (_ & L' & dr & P & _). assert (PL := Permutation_length P). rewrite app_length in PL.
  assert (dr = []) by (apply length_zero_iff_nil; lia). subst. rewrite app_nil_r in P. eapply Permutation_in; [symmetry; exact P|auto].
Qed.

(** And the ten slowest, when the last slow call is one of them. *)
Theorem C32_ten_slowest_listed_partial t h most slows thr cs0 lst c :
  popped t h most slows -> since t h = Some (thr, cs0 ++ [lst]) -> thr <= duration lst ->
  NoDup (map label (slow_ones thr (cs0 ++ [lst]))) ->
  (as_slow lst (slow_ones thr (cs0 ++ [lst])) <= 10)%nat ->
  In c (slow_ones thr (cs0 ++ [lst])) -> (as_slow c (slow_ones thr (cs0 ++ [lst])) <= 10)%nat ->
  In (label c, duration c) slows.
Proof.
  intros PP S TH ND NL I0 N. destruct (popped_ok _ _ _ _ PP) as (thr' & cs' & S' & E1 & E2). rewrite S in S'. inversion S'; subst.
  destruct (run_ok thr' (cs0 ++ [lst])) as [_ K]. eapply kept_listed; eauto.
  destruct (run_ok thr' cs0) as [T0 K0].
  assert (SO : slow_ones thr' (cs0 ++ [lst]) = slow_ones thr' cs0 ++ [lst]).
  { unfold slow_ones. rewrite filter_app. cbn [filter]. apply Z.leb_le in TH. now rewrite TH. }
  rewrite SO in *. eapply kept_ten; eauto.
  unfold run. rewrite fold_left_app. cbn [fold_left]. fold (run thr' cs0). unfold collect. rewrite T0.
  destruct (Z.ltb_spec (duration lst) thr'); [lia|]. reflexivity.
Qed.

(** What is listed did happen; at most ten entries. *)
Theorem C32_listed_calls_happened t h most slows thr cs l v :
  popped t h most slows -> since t h = Some (thr, cs) -> In (l, v) slows ->
  exists c, In c cs /\ label c = l /\ duration c = v /\ thr <= v.
Proof.
  intros PP S I0. destruct (popped_ok _ _ _ _ PP) as (thr' & cs' & S' & E1 & E2). rewrite S in S'. inversion S'; subst.
  destruct (run_ok thr' cs') as [_ (SS & L & dr & P & B)]. apply slows_ok in I0; auto.
  destruct I0 as (c & Ic & EL & EV & _).
  assert (IS : In c (slow_ones thr' cs')) by (apply (Permutation_in c P), in_or_app; auto).
  unfold slow_ones in IS. apply filter_In in IS. destruct IS as [IC TH]. apply Z.leb_le in TH. exists c. repeat split; auto. lia.
Qed.
Theorem C32_at_most_ten t h most slows : popped t h most slows -> (length most <= 10 /\ length slows <= 10)%nat.
Proof.
  intros PP. destruct (popped_ok _ _ _ _ PP) as (thr & cs & S0 & -> & ->). split.
  - rewrite firstn_length. lia.
  - destruct (run_ok thr cs) as [_ (SS & L & _)].
    assert (X : forall l, (length (entries l) <= length l)%nat).
    { intros l. induction l as [|c l IH] using rev_ind; auto. rewrite entries_snoc, app_length. cbn [length].
      assert (Y : forall d k (v : Z), (length (gset Nat.eqb d k v) <= S (length d))%nat).
      { induction d as [|[k' v'] d IHd]; intros k v; cbn [gset length]; [lia|]. destruct (k' =? k)%nat; cbn [length]; [lia|]. specialize (IHd k v). lia. }
      specialize (Y (entries l) (label c) (duration c)). lia. }
    specialize (X (rev (slow (run thr cs)))). rewrite rev_length in X. lia.
Qed.

(** *** Call counts *)
Lemma nodup_app_l {A} (a b : list A) : NoDup (a ++ b) -> NoDup a.
Proof.
  induction a as [|x a IH]; intros N; [constructor|]. inversion N; subst. constructor; auto.
  intros I0. apply H1. apply in_or_app. auto.
Qed.
Lemma incr_get k d : forall x, gget Nat.eqb (incr k d) x =
  if (k =? x)%nat then Some (S match gget Nat.eqb d x with Some n => n | None => 0%nat end) else gget Nat.eqb d x.
Proof.
  induction d as [|[k' n] d IH]; intros x; cbn [incr gget].
  - destruct (k =? x)%nat; auto.
  - destruct (Nat.eqb_spec k' k) as [->|N]; cbn [gget].
    + destruct (k =? x)%nat; auto.
    + rewrite IH. destruct (Nat.eqb_spec k' x) as [->|N']; auto. destruct (Nat.eqb_spec k x); auto. congruence.
Qed.
Lemma incr_keys k d : NoDup (gkeys d) -> NoDup (gkeys (incr k d)).
Proof.
  unfold gkeys. induction d as [|[k' n] d IH]; cbn [incr map fst]; intros ND; [repeat constructor; auto|].
  inversion ND as [|? ? NI ND']; subst. destruct (Nat.eqb_spec k' k) as [->|N]; cbn [map fst]; [now constructor|].
  constructor; auto. intros I0. apply NI. apply in_map_iff in I0. destruct I0 as ([k2 n2] & E & I0). cbn in E. subst.
  apply (gIn_get _ nat_spec) in I0; [|apply IH; auto]. rewrite incr_get in I0. apply Nat.eqb_neq in N. rewrite Nat.eqb_sym, N in I0.
  apply gget_In in I0; [|apply nat_spec]. now apply (in_map fst) in I0.
Qed.
Lemma counter_ok thr cs : NoDup (gkeys (counter (run thr cs))) /\
  forall k, gget Nat.eqb (counter (run thr cs)) k = if (times_called k cs =? 0)%nat then None else Some (times_called k cs).
Proof.
  induction cs as [|c cs [ND IH]] using rev_ind; [split; [constructor|auto]|].
  unfold run in *. rewrite fold_left_app. cbn [fold_left]. set (s := fold_left collect cs (new_stats thr)) in *.
  assert (E : counter (collect s c) = incr (key c) (counter s)) by (unfold collect; destruct (_ <? _); reflexivity).
  rewrite E. split; [now apply incr_keys|]. intros k. rewrite incr_get, IH. unfold times_called. rewrite filter_app, app_length. cbn [filter].
  destruct (key c =? k)%nat; cbn [length]; [|now rewrite Nat.add_0_r].
  rewrite Nat.add_1_r. cbn [Nat.eqb]. destruct (length _); reflexivity.
Qed.
Lemma ins_perm x l : Permutation (ins_desc x l) (x :: l).
Proof. induction l as [|y l IH]; auto. cbn [ins_desc]. destruct (snd y <=? snd x)%nat; auto. rewrite IH. apply perm_swap. Qed.
Lemma sort_perm l : Permutation (sort_desc l) l.
Proof. induction l; auto. cbn [sort_desc]. rewrite ins_perm. auto. Qed.
Definition ge_count (a b : nat * nat) : Prop := (snd b <= snd a)%nat.
Lemma sort_sorted l : StronglySorted ge_count (sort_desc l).
Proof.
  induction l as [|x l IH]; [constructor|]. cbn [sort_desc]. induction IH as [|y l' S IH' F]; [repeat constructor|].
  cbn [ins_desc]. destruct (Nat.leb_spec (snd y) (snd x)).
  - constructor; [constructor; auto|]. constructor; auto. eapply Forall_impl; [|exact F]. unfold ge_count. intros; lia.
  - constructor; auto. rewrite ins_perm. constructor; auto. unfold ge_count. lia.
Qed.
Lemma sorted_split n l : StronglySorted ge_count l -> forall a b, In a (firstn n l) -> In b (skipn n l) -> ge_count a b.
Proof.
  revert n. induction l as [|x l IH]; intros [|n] S a b Ia Ib; cbn in *; try contradiction.
  inversion S as [|? ? S' F]; subst. rewrite Forall_forall in F. destruct Ia as [<-|Ia]; [|eapply IH; eauto].
  apply F. rewrite <- (firstn_skipn n l). apply in_or_app. auto.
Qed.

(** The counts are exact, in descending order; there are ten of them if ten methods
    were called, and a method that is missing was not called more often than a listed one. *)
Theorem C32_most_calls t h most slows thr cs :
  popped t h most slows -> since t h = Some (thr, cs) ->
  NoDup (map fst most) /\
  (forall k n, In (k, n) most -> n = times_called k cs /\ (0 < n)%nat) /\
  StronglySorted (fun a b => snd b <= snd a)%nat most /\
  (forall k, (0 < times_called k cs)%nat -> In k (map fst most) \/
     length most = 10%nat /\ forall k' n, In (k', n) most -> (times_called k cs <= n)%nat).
Proof.
  intros PP S. destruct (popped_ok _ _ _ _ PP) as (thr' & cs' & S' & E1 & E2). rewrite S in S'. inversion S'; subst.
  clear PP S S'. destruct (counter_ok thr' cs') as [ND G].
  set (d := counter (run thr' cs')) in *. set (l := sort_desc d).
  assert (P : Permutation l d) by apply sort_perm.
  assert (NL : NoDup (map fst l)) by (eapply Permutation_NoDup; [apply Permutation_map; symmetry; exact P|exact ND]).
  assert (SP : firstn 10 l ++ skipn 10 l = l) by apply firstn_skipn.
  assert (VAL : forall k n, In (k, n) l -> n = times_called k cs' /\ (0 < n)%nat).
  { intros k n I0. apply (Permutation_in _ P) in I0. apply (gIn_get _ nat_spec) in I0; auto. rewrite G in I0.
    destruct (Nat.eqb_spec (times_called k cs') 0); [discriminate|]. inversion I0. lia. }
  split; [|split; [|split]].
  - rewrite <- SP in NL. rewrite map_app in NL. now apply nodup_app_l in NL.
  - intros k n I0. apply VAL. rewrite <- SP. apply in_or_app. auto.
  - assert (SS := sort_sorted d). fold l in SS. rewrite <- SP in SS.
    revert SS. generalize (firstn 10 l). generalize (skipn 10 l). intros b a. induction a as [|x a IH]; intros SS; [constructor|].
    inversion SS as [|? ? SS' F]; subst. constructor; auto. rewrite Forall_app in F. apply F.
  - intros k Hk. assert (I0 : In (k, times_called k cs') l).
    { apply (Permutation_in _ (Permutation_sym P)). apply (gget_In _ nat_spec). rewrite G. destruct (Nat.eqb_spec (times_called k cs') 0); [lia|auto]. }
    rewrite <- SP in I0. apply in_app_or in I0. destruct I0 as [I0|I0]; [left; now apply (in_map fst) in I0|]. right. split.
    + rewrite firstn_length. assert (L : (10 < length l)%nat); [|lia].
      destruct (Nat.lt_ge_cases 10 (length l)); auto. rewrite skipn_all2 in I0 by auto. destruct I0.
    + intros k' n I'. apply (sorted_split 10 l (sort_sorted d) (k', n) _ I' I0).
Qed.

(** [pop] gives nothing exactly when the task is not being profiled. *)
Theorem C32_pop_of_unknown_task t h d d' r : reach d h -> step d (Pop t) = (d', r) ->
  (r = None <-> since t h = None).
Proof.
  intros R ST. cbn [step] in ST. rewrite (state_ok _ _ R t) in ST. destruct (since t h) as [[thr cs]|]; inversion ST; split; congruence.
Qed.

(** ** Demonstration and counterexamples *)
Fixpoint final (d : tasks) (l : list op) : tasks := match l with [] => d | o :: l => final (fst (step d o)) l end.
Lemma final_reach l : forall d h, reach d h -> reach (final d l) (rev l ++ h).
Proof.
  induction l as [|o l IH]; intros d h R; auto. cbn [final rev]. rewrite <- app_assoc. cbn [app]. apply IH.
  destruct (step d o) eqn:E. econstructor; eauto.
Qed.
Lemma run_popped l t r d' : step (final [] l) (Pop t) = (d', Some r) -> popped t (rev l) (fst r) (snd r).
Proof.
  intros E. exists (final [] l), d'. split; [|now destruct r]. rewrite <- (app_nil_r (rev l)). apply final_reach. constructor.
Qed.

Module Demo.
  Definition c (d : Z) (l : nat) : op := Call Send (mkCall d (Nat.modulo l 3) (Z.of_nat l) l).
  Definition mixed := [Init 7 2; c 5 1; Call Other (mkCall 50 1 1 1); c 1 2; Call Tell (mkCall 9 0 3 3); Init 8 0; c 4 4].
  Example demo_mixed : popped 7 (rev mixed) [(1%nat, 2%nat); (2%nat, 1%nat); (0%nat, 1%nat)] [(3%nat, 9); (1%nat, 5); (4%nat, 4)].
  Proof. refine (run_popped mixed 7 (_, _) _ _). reflexivity. Qed.
  Example demo_since : since 7 (rev mixed) =
    Some (2, [mkCall 5 1 1 1; mkCall 1 2 2 2; mkCall 9 0 3 3; mkCall 4 1 4 4]).
  Proof. reflexivity. Qed.
  (** Twelve slow calls: the slowest nine are listed. *)
  Definition twelve := Init 7 1 :: map (fun i => c (Z.of_nat (5 + i)) i) (seq 0 12).
  Example demo_twelve : exists m s, popped 7 (rev twelve) m s /\ In (11%nat, 16) s /\ ~ In (1%nat, 6) s /\ length s = 10%nat.
  Proof.
    eexists _, _. split; [refine (run_popped twelve 7 (_, _) _ _); reflexivity|].
    split; [vm_compute; auto|]. split; [|reflexivity]. vm_compute. intuition discriminate.
  Qed.
  Definition fast_last := Init 7 1 :: map (fun i => c 100 i) (seq 0 10) ++ [c 1 10].
  Definition same := [Init 7 1; c 5 1; c 3 1].
End Demo.

(** A fast call drives out a slow one. *)
Theorem C32_fast_call_drops_slow_one_refuted : ~ C32_claim.
Proof.
  intros C. assert (P := run_popped Demo.fast_last 7 (_, _) _ eq_refl).
  specialize (C 7%nat _ _ _ _ _ (mkCall 100 0 0 0) P eq_refl). cbn [fst snd] in C.
  assert (X : In (0%nat, 100) (snd (to_dict (run 1 (map (fun i => mkCall 100 (Nat.modulo i 3) (Z.of_nat i) i) (seq 0 10) ++ [mkCall 1 1 10 10]))))).
  { apply C; [vm_compute; auto|vm_compute; lia]. }
  vm_compute in X. intuition discriminate.
Qed.

(** Two calls with the same label: the slower one is not listed. *)
Theorem C32_same_label_keeps_faster_refuted : ~ (forall t h most slows thr cs c,
  popped t h most slows -> since t h = Some (thr, cs) -> (length cs <= 2)%nat ->
  In c (slow_ones thr cs) -> In (label c, duration c) slows).
Proof.
  intros C. specialize (C 7%nat _ _ _ _ _ (mkCall 5 1 1 1) (run_popped Demo.same 7 (_, _) _ eq_refl) eq_refl).
  assert (X : In (1%nat, 5) [(1%nat, 3)]).
  { apply C; [cbn; lia|vm_compute; auto]. }
  cbn in X. intuition discriminate.
Qed.

Print Assumptions C32_nine_slowest_listed_partial.
Print Assumptions C32_up_to_ten_listed_partial.
Print Assumptions C32_ten_slowest_listed_partial.
Print Assumptions C32_listed_calls_happened.
Print Assumptions C32_at_most_ten.
Print Assumptions C32_most_calls.
Print Assumptions C32_pop_of_unknown_task.
Print Assumptions C32_fast_call_drops_slow_one_refuted.
Print Assumptions C32_same_label_keeps_faster_refuted.
