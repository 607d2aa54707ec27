(** * C31: percentile recorders report order statistics, once per window

    How to read.  [is_kth k w x]: [x] is the [k]-th smallest value of the list
    [w], counting equal values separately.  The recorded values are cut into
    consecutive windows; the callback is called once for each complete window,
    in order, with the [k]-th smallest value of it, where [k] is the recorder's
    capacity (or the largest value if the capacity exceeds the window).

    The repository's own test expects P99 of 100 values to be the smallest one,
    P95 the 5th smallest, P90 the 10th smallest.  In the usual meaning, P99 is a
    value that 99 percent of the values do not exceed: refuted below.  Moreover
    [record_time_cost_percentile] builds new recorders at each use, and never
    calls back. *)
From Coq Require Import List Bool Arith ZArith Lia Permutation Sorted.
From Verif Require Import PercentileModel.
Import ListNotations.
Open Scope Z_scope.

(** ** Specification *)
Definition below (x : Z) (w : list Z) : nat := length (filter (fun y => y <? x) w).
Definition upto (x : Z) (w : list Z) : nat := length (filter (fun y => y <=? x) w).
Definition is_kth (k : nat) (w : list Z) (x : Z) : Prop :=
  In x w /\ (below x w < k <= upto x w)%nat.

(** ** Proofs *)
Lemma insert_perm x l : Permutation (insert x l) (x :: l).
Proof.
  induction l as [|y l IH]; auto. cbn [insert]. destruct (x <=? y); auto.
  rewrite IH. apply perm_swap.
Qed.
Lemma insert_length x l : length (insert x l) = S (length l).
Proof. rewrite (Permutation_length (insert_perm x l)). reflexivity. Qed.
Lemma insert_sorted x l : StronglySorted Z.le l -> StronglySorted Z.le (insert x l).
Proof.
  induction 1 as [|y l S IH F]; [repeat constructor|]. cbn [insert]. destruct (Z.leb_spec x y).
  - constructor; [constructor; auto|]. constructor; auto. eapply Forall_impl; [|exact F]. cbn. lia.
  - constructor; auto. rewrite insert_perm. constructor; [lia|auto].
Qed.

Definition opps (l : list Z) : list Z := map Z.opp l.

(** The heap holds (negated) the smallest values of the current window [w]. *)
Definition Holds (r : recorder) (w : list Z) : Prop :=
  StronglySorted Z.le (heap r) /\ length (heap r) = Nat.min (capacity r) (length w) /\
  cur_num r = length w /\ (length w < window r)%nat /\ (0 < capacity r)%nat /\
  exists big, Permutation (opps (heap r) ++ big) w /\ forall x y, In x (heap r) -> In y big -> - x <= y.

Lemma filter_perm {A} (f : A -> bool) a b : Permutation a b -> Permutation (filter f a) (filter f b).
Proof.
  induction 1; cbn [filter]; auto.
  - destruct (f x); auto.
  - destruct (f x); destruct (f y); auto using perm_swap.
  - eapply Permutation_trans; eauto.
Qed.
Lemma below_perm x a b : Permutation a b -> below x a = below x b.
Proof. intros P. unfold below. apply Permutation_length. now apply filter_perm. Qed.
Lemma upto_perm x a b : Permutation a b -> upto x a = upto x b.
Proof. intros P. unfold upto. apply Permutation_length. now apply filter_perm. Qed.
Lemma below_app x a b : below x (a ++ b) = (below x a + below x b)%nat.
Proof. unfold below. now rewrite filter_app, app_length. Qed.
Lemma upto_app x a b : upto x (a ++ b) = (upto x a + upto x b)%nat.
Proof. unfold upto. now rewrite filter_app, app_length. Qed.
Lemma below_none x a : (forall y, In y a -> x <= y) -> below x a = 0%nat.
Proof.
  intros H. unfold below. induction a as [|y a IH]; auto. cbn [filter]. destruct (Z.ltb_spec y x).
  - specialize (H y (or_introl eq_refl)). lia.
  - apply IH. intros; apply H; cbn; auto.
Qed.
Lemma upto_all x a : (forall y, In y a -> y <= x) -> upto x a = length a.
Proof.
  intros H. unfold upto. induction a as [|y a IH]; auto. cbn [filter length]. destruct (Z.leb_spec y x).
  - cbn [length]. f_equal. apply IH. intros; apply H; cbn; auto.
  - specialize (H y (or_introl eq_refl)). lia.
Qed.
Lemma below_len x a : (below x a <= length a)%nat.
Proof. unfold below. induction a as [|y a IH]; cbn; auto. destruct (y <? x); cbn; lia. Qed.

Lemma opps_in x l : In x (opps l) <-> In (- x) l.
Proof.
  unfold opps. rewrite in_map_iff. split.
  - intros (y & <- & I). now rewrite Z.opp_involutive.
  - intros I. exists (- x). split; auto. lia.
Qed.

(** The heap's least element is the k-th smallest value. *)
Lemma top_is_kth h big w t rest : h = t :: rest -> StronglySorted Z.le h ->
  Permutation (opps h ++ big) w -> (forall x y, In x h -> In y big -> - x <= y) ->
  is_kth (length h) w (- t).
Proof.
  intros -> S P B. inversion S as [|? ? S' F]; subst. rewrite Forall_forall in F. split.
  - apply (Permutation_in _ P). apply in_or_app. left. apply opps_in. rewrite Z.opp_involutive. cbn; auto.
  - rewrite <- (below_perm _ _ _ P), <- (upto_perm _ _ _ P), below_app, upto_app. split.
    + rewrite (below_none (- t) big) by (intros y I; apply B; cbn; auto).
      cbn [opps map]. unfold below at 1. cbn [filter]. rewrite Z.ltb_irrefl. fold (below (- t) (map Z.opp rest)).
      assert (H := below_len (- t) (map Z.opp rest)). rewrite map_length in H. cbn [length]. lia.
    + rewrite (upto_all (- t) (opps (t :: rest))).
      * unfold opps. rewrite map_length. lia.
      * intros y I. apply opps_in in I. cbn [In] in I. destruct I as [I|I]; [lia|]. specialize (F _ I). lia.
Qed.

(** Storing one more value. *)
Definition stored (r : recorder) (v : Z) : list Z :=
  if (length (heap r) <? capacity r)%nat then insert (- 1 * v) (heap r)
  else match heap r with
       | [] => []
       | top :: rest => insert (if top <? - 1 * v then - 1 * v else top) rest
       end.

Lemma stored_ok r w v : Holds r w ->
  StronglySorted Z.le (stored r v) /\ length (stored r v) = Nat.min (capacity r) (S (length w)) /\
  exists big, Permutation (opps (stored r v) ++ big) (v :: w) /\ forall x y, In x (stored r v) -> In y big -> - x <= y.
Proof.
  intros (S & L & N & W & C & big & P & B). unfold stored.
  destruct (Nat.ltb_spec (length (heap r)) (capacity r)) as [LT|GE].
  - assert (LB : length big = 0%nat).
    { apply Permutation_length in P. unfold opps in P. rewrite app_length, map_length in P. lia. }
    apply length_zero_iff_nil in LB. subst big. rewrite app_nil_r in P.
    split; [now apply insert_sorted|]. split; [rewrite insert_length; lia|]. exists []. split; [|intros ? ? ? []].
    rewrite app_nil_r. unfold opps. rewrite insert_perm. cbn [map]. replace (- (-1 * v)) with v by lia. constructor. exact P.
  - destruct (heap r) as [|top rest] eqn:H; [cbn in *; lia|].
    inversion S as [|? ? S' F]; subst. rewrite Forall_forall in F.
    split; [now apply insert_sorted|]. split; [rewrite insert_length; cbn [length] in *; lia|].
    destruct (Z.ltb_spec top (- 1 * v)) as [LT|GE'].
    + exists (- top :: big). split.
      * unfold opps. rewrite insert_perm. cbn [map app]. replace (- (-1 * v)) with v by lia. constructor.
        rewrite <- Permutation_middle. rewrite <- P. reflexivity.
      * intros x y Ix Iy. rewrite insert_perm in Ix. cbn [In] in Ix, Iy. destruct Ix as [<-|Ix]; destruct Iy as [<-|Iy].
        -- lia.
        -- specialize (B top y (or_introl eq_refl) Iy). lia.
        -- specialize (F x Ix). lia.
        -- apply B; cbn; auto.
    + exists (v :: big). split.
      * unfold opps. rewrite insert_perm. rewrite <- Permutation_middle. constructor. exact P.
      * intros x y Ix Iy. rewrite insert_perm in Ix. cbn [In] in Ix, Iy.
        assert (TX : top <= x) by (destruct Ix as [<-|Ix]; [lia|auto]).
        destruct Iy as [<-|Iy]; [lia|]. specialize (B top y (or_introl eq_refl) Iy). lia.
Qed.

Lemma record_step r w v : Holds r w ->
  (S (length w) = window r /\ exists x, record_data r v = Some (mkR (capacity r) (window r) [] 0, Some x) /\
     is_kth (Nat.min (capacity r) (window r)) (v :: w) x) \/
  ((S (length w) < window r)%nat /\ exists r', record_data r v = Some (r', None) /\ Holds r' (v :: w) /\
     capacity r' = capacity r /\ window r' = window r).
Proof.
  intros H. destruct (stored_ok r w v H) as (S' & L' & big & P & B).
  destruct H as (S & L & N & W & C & _).
  assert (E : (if (length (heap r) <? capacity r)%nat then Some (insert (-1 * v) (heap r))
     else match heap r with
          | [] => None
          | top :: rest => Some (insert (if top <? -1 * v then -1 * v else top) rest)
          end) = Some (stored r v)).
  { unfold stored. destruct (length (heap r) <? capacity r)%nat eqn:LT; auto.
    apply Nat.ltb_ge in LT. destruct (heap r); auto. cbn in LT. lia. }
  unfold record_data. rewrite E, N.
  assert (M : (Datatypes.S (length w) mod window r =? 0)%nat = (Datatypes.S (length w) =? window r)%nat).
  { destruct (Nat.eqb_spec (Datatypes.S (length w)) (window r)) as [EQ|NE].
    - rewrite EQ, Nat.mod_same by lia. reflexivity.
    - rewrite Nat.mod_small by lia. reflexivity. }
  rewrite M. destruct (Nat.eqb_spec (Datatypes.S (length w)) (window r)) as [EQ|NE].
  - left. split; auto. destruct (stored r v) as [|t rest] eqn:ST; [cbn [length] in L'; lia|].
    exists (- 1 * t). split; auto. assert (K := top_is_kth _ big (v :: w) t rest eq_refl S' P B).
    rewrite L', EQ in K. replace (- 1 * t) with (- t) by lia. exact K.
  - right. split; [lia|]. eexists. split; [reflexivity|]. split; [|auto].
    unfold Holds. cbn [heap capacity cur_num window length]. repeat split; auto; [lia|]. exists big. auto.
Qed.

Lemma is_kth_perm k a b x : Permutation a b -> is_kth k a x -> is_kth k b x.
Proof.
  intros P [I K]. split; [eapply Permutation_in; eauto|]. now rewrite <- (below_perm _ _ _ P), <- (upto_perm _ _ _ P).
Qed.

Lemma record_all_ok vs : forall r w, Holds r w ->
  exists r' outs ws rest, record_all r vs = Some (r', outs) /\
    rev w ++ vs = concat ws ++ rest /\ Forall (fun x => length x = window r) ws /\ (length rest < window r)%nat /\
    Forall2 (is_kth (Nat.min (capacity r) (window r))) ws outs.
Proof.
  induction vs as [|v vs IH]; intros r w H.
  - exists r, [], [], (rev w). rewrite app_nil_r. repeat split; auto. rewrite rev_length. apply H.
  - cbn [record_all]. destruct (record_step r w v H) as [(EQ & x & E & K)|(LT & r' & E & H' & CE & WE)]; rewrite E.
    + assert (H0 : Holds (mkR (capacity r) (window r) [] 0) []).
      { destruct H as (_ & _ & _ & W & C & _). unfold Holds. cbn. repeat split; auto; try constructor; try lia.
        exists []. split; auto. cbn. tauto. }
      destruct (IH _ _ H0) as (r'' & outs & ws & rest & E' & SP & F & LR & K'). rewrite E'. cbn [capacity window rev app] in *.
      exists r'', (x :: outs), ((rev w ++ [v]) :: ws), rest. repeat split; auto.
      * cbn [concat]. rewrite <- !app_assoc. cbn [app]. now rewrite SP.
      * constructor; auto. rewrite app_length, rev_length. cbn. lia.
      * constructor; auto. eapply is_kth_perm; [|exact K]. rewrite <- Permutation_cons_append. constructor. apply Permutation_rev.
    + destruct (IH _ _ H') as (r'' & outs & ws & rest & E' & SP & F & LR & K'). rewrite E'.
      exists r'', outs, ws, rest. rewrite WE in F, LR. rewrite CE, WE in K'. repeat split; auto.
      cbn [rev] in SP. rewrite <- app_assoc in SP. exact SP.
Qed.

(** ** The property *)

(** One callback for each complete window, with the order statistic. *)
Theorem C31_callbacks_are_order_statistics cap win r vs :
  create cap win = Some r ->
  exists r' outs ws rest, record_all r vs = Some (r', outs) /\
    vs = concat ws ++ rest /\ Forall (fun w => Z.of_nat (length w) = win) ws /\ Z.of_nat (length rest) < win /\
    Forall2 (is_kth (Z.to_nat (Z.min cap win))) ws outs.
Proof.
  unfold create. destruct (Z.leb_spec cap 0); [discriminate|]. destruct (Z.leb_spec win 0); [discriminate|]. cbn [orb].
  intros E. inversion E; subst. clear E.
  assert (H1 : Holds (mkR (Z.to_nat cap) (Z.to_nat win) [] 0) []).
  { unfold Holds. cbn. repeat split; auto; try constructor; try lia. exists []. split; auto. cbn. tauto. }
  destruct (record_all_ok vs _ _ H1) as (r' & outs & ws & rest & E & SP & F & LR & K). cbn [rev app capacity window] in *.
  exists r', outs, ws, rest. repeat split; auto; [|lia|].
  - eapply Forall_impl; [|exact F]. cbn. lia.
  - replace (Z.to_nat (Z.min cap win)) with (Nat.min (Z.to_nat cap) (Z.to_nat win)) by lia. exact K.
Qed.

(** Illegal sizes are refused, and only these. *)
Theorem C31_illegal_sizes_refused cap win : create cap win = None <-> cap <= 0 \/ win <= 0.
Proof.
  unfold create. destruct (Z.leb_spec cap 0); destruct (Z.leb_spec win 0); cbn [orb]; split; intros; auto; try discriminate; lia.
Qed.

(** The order statistic is unique, so the callback's value is determined. *)
Theorem C31_order_statistic_unique k w x y : is_kth k w x -> is_kth k w y -> x = y.
Proof.
  assert (M : forall a b, a < b -> (upto a w <= below b w)%nat).
  { intros a b L. unfold upto, below. induction w as [|z l IH]; auto. cbn [filter].
    destruct (Z.leb_spec z a); destruct (Z.ltb_spec z b); cbn [length]; lia. }
  intros [_ K1] [_ K2]. destruct (Z.lt_trichotomy x y) as [L|[L|L]]; auto; specialize (M _ _ L); lia.
Qed.

(** The percentiles as the repository's test expects them. *)
Definition share (p : ptype) (win : Z) : Z := match p with P99 => win / 100 | P95 => win / 20 | P90 => win / 10 end.
Theorem C31_percentiles p win r vs : build p win = Some r ->
  exists r' outs ws rest, record_all r vs = Some (r', outs) /\
    vs = concat ws ++ rest /\ Forall (fun w => Z.of_nat (length w) = win) ws /\ Z.of_nat (length rest) < win /\
    Forall2 (is_kth (Z.to_nat (share p win))) ws outs.
Proof.
  intros B. assert (B' : create (share p win) win = Some r) by (destruct p; exact B).
  destruct (C31_callbacks_are_order_statistics _ _ _ vs B') as (r' & outs & ws & rest & E & SP & F & L & K).
  exists r', outs, ws, rest. repeat split; auto.
  assert (NI : ~ (share p win <= 0 \/ win <= 0)) by (intros X; apply C31_illegal_sizes_refused in X; congruence).
  replace (Z.min (share p win) win) with (share p win) in K; auto.
  symmetry. apply Z.min_l. destruct p; cbn [share]; apply Z.div_le_upper_bound; lia.
Qed.

(** The usual meaning: 99 percent of the values do not exceed the reported one. *)
Definition usual_p99 : Prop := forall win r vs r' x,
  build P99 win = Some r -> Z.of_nat (length vs) = win -> record_all r vs = Some (r', [x]) ->
  99 * win <= 100 * Z.of_nat (upto x vs).

Module Demo.
  Definition hundred : list Z := map Z.of_nat (seq 1 100).
  Example demo_p99 : exists r r', build P99 100 = Some r /\ record_all r hundred = Some (r', [1]).
  Proof. exists (mkR 1 100 [] 0), (mkR 1 100 [] 0). split; vm_compute; reflexivity. Qed.
  Example demo_p90 : exists r r', build P90 100 = Some r /\ record_all r (hundred ++ rev hundred ++ [7; 8]) = Some (r', [10; 10]).
  Proof. eexists (mkR 10 100 [] 0), _. split; vm_compute; reflexivity. Qed.
  Example demo_kth : is_kth 10 hundred 10.
  Proof. split; [apply in_map_iff; exists 10%nat; split; [reflexivity|apply in_seq; lia]|]. split; [vm_compute; lia|]. vm_compute. lia. Qed.
  Example demo_ties : exists r r', create 2 4 = Some r /\ record_all r [5; 5; 3; 9; 1] = Some (r', [5]).
  Proof. eexists _, _. split; reflexivity. Qed.
End Demo.

Theorem C31_usual_p99_refuted : ~ usual_p99.
Proof.
  intros U. destruct Demo.demo_p99 as (r & r' & B & E). specialize (U 100 r Demo.hundred r' 1 B eq_refl E).
  vm_compute in U. apply U. reflexivity.
Qed.

(** The time-cost recorder never reports anything. *)
Theorem C31_time_cost_never_reported_refuted args cost outs :
  record_time_cost args cost = Some outs -> forall o, In o outs -> o = [].
Proof.
  unfold record_time_cost. destruct (build_all args) as [rs|] eqn:B; [|discriminate]. intros E. inversion E; subst. clear E.
  revert rs B. induction args as [|[p w] args IH]; intros rs B o I; cbn [build_all] in B.
  - inversion B; subst. destruct I.
  - destruct (build p w) as [r|] eqn:BP; [|discriminate]. destruct (build_all args) as [rs'|]; [|discriminate]. inversion B; subst.
    cbn [map In] in I. destruct I as [<-|I]; [|eapply IH; eauto].
    assert (B' : create (share p w) w = Some r) by (destruct p; exact BP).
    destruct (C31_callbacks_are_order_statistics _ _ _ [cost] B') as (r' & out & ws & rest & E & SP & F & L & K).
    change (match record_all r [cost] with Some (_, out0) => out0 | None => [] end = []). rewrite E. assert (NI : ~ (share p w <= 0 \/ w <= 0)) by (intros X; apply C31_illegal_sizes_refused in X; congruence).
    assert (W10 : 10 <= w).
    { destruct (Z.le_gt_cases 10 w); auto. elim NI. left. destruct p; cbn [share]; rewrite Z.div_small; lia. }
    destruct ws as [|w1 ws]; [inversion K; reflexivity|]. inversion F as [|? ? L1 _]; subst.
    apply (f_equal (@length Z)) in SP. cbn [concat] in SP. rewrite !app_length in SP. cbn [length] in SP. lia.
Qed.
(** It refuses what no recorder can be built for, and otherwise serves every argument. *)
Theorem C31_every_argument_served args cost :
  (record_time_cost args cost = None <-> exists p w, In (p, w) args /\ (share p w <= 0 \/ w <= 0)) /\
  (forall outs, record_time_cost args cost = Some outs -> length outs = length args).
Proof.
  assert (A : (build_all args = None <-> exists p w, In (p, w) args /\ (share p w <= 0 \/ w <= 0)) /\
              (forall rs, build_all args = Some rs -> length rs = length args)).
  { induction args as [|[p w] args [IH1 IH2]]; cbn [build_all].
    - split; [split; [discriminate|intros (? & ? & [] & _)]|]. intros rs E. now inversion E.
    - assert (BI : build p w = None <-> share p w <= 0 \/ w <= 0).
      { rewrite <- C31_illegal_sizes_refused. destruct p; reflexivity. }
      destruct (build p w) as [r|] eqn:B.
      + assert (NB : ~ (share p w <= 0 \/ w <= 0)) by (rewrite <- BI; discriminate).
        destruct (build_all args) as [rs|] eqn:BA.
        * split; [|intros rs' E; inversion E; subst; cbn [length]; f_equal; now apply IH2].
          split; [discriminate|]. intros (q & v & [E|I] & H).
          -- inversion E; subst. tauto.
          -- exfalso. assert (X : Some rs = None) by (apply IH1; eauto). discriminate X.
        * split; [|discriminate]. split; [intros _|auto].
          destruct (proj1 IH1 eq_refl) as (q & v & I & H). exists q, v. cbn. auto.
      + split; [|discriminate]. split; [intros _|auto]. exists p, w. split; [now left|]. now apply BI. }
  destruct A as [A1 A2]. unfold record_time_cost. destruct (build_all args) as [rs|].
  - split; [rewrite <- A1; split; discriminate|]. intros outs E. inversion E. rewrite map_length. now apply A2.
  - split; [rewrite <- A1; tauto|discriminate].
Qed.
Example demo_time_cost : record_time_cost [(P99, 100); (P90, 10)] 5 = Some [[]; []].
Proof. reflexivity. Qed.

Print Assumptions C31_callbacks_are_order_statistics.
Print Assumptions C31_illegal_sizes_refused.
Print Assumptions C31_order_statistic_unique.
Print Assumptions C31_percentiles.
Print Assumptions C31_usual_p99_refuted.
Print Assumptions C31_time_cost_never_reported_refuted.
Print Assumptions C31_every_argument_served.
