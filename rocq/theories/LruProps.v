(** C25, C26: alru_cache.

    Reading guide.  A history lists the events, newest first, each with its visible
    result.  The specification below speaks about histories only. *)
From Coq Require Import List Arith Bool Lia.
From Verif Require Import Base Dict LruModel.
Import ListNotations.

(** ** Specification *)

Definition cut (maxsize : option nat) (l : list nat) : list nat :=
  match maxsize with Some n => firstn n l | None => l end.
Definition without (k : nat) (l : list nat) : list nat := filter (fun x => negb (x =? k)) l.

(** The keys an LRU cache holds after a history, the most recently used first:
    a use puts the key in front and drops what exceeds maxsize. *)
Fixpoint held (maxsize : option nat) (h : history) : list nat :=
  match h with
  | [] => []
  | (ECall k, RClosed) :: h' => held maxsize h'
  | (ECall k, _) :: h' => cut maxsize (k :: without k (held maxsize h'))
  | (EInvalidate k, _) :: h' => without k (held maxsize h')
  | (EClear, _) :: h' => []
  | _ :: h' => held maxsize h'
  end.

(** The last computation started for a key. *)
Fixpoint last_started (h : history) (k : nat) : option nat :=
  match h with
  | [] => None
  | (ECall k', RNew f) :: h' => if k' =? k then Some f else last_started h' k
  | _ :: h' => last_started h' k
  end.
(** How a computation ended. *)
Fixpoint ended (h : history) (f : nat) : option outcome :=
  match h with
  | [] => None
  | (EDone f' o, ROk) :: h' => if f' =? f then Some o else ended h' f
  | _ :: h' => ended h' f
  end.
Fixpoint started (h : history) : nat :=
  match h with [] => 0 | (ECall _, RNew _) :: h' => S (started h') | _ :: h' => started h' end.
Fixpoint is_closed (h : history) : bool :=
  match h with
  | [] => false
  | (EClose, ROk) :: _ => true
  | (EOpen, ROk) :: _ => false
  | _ :: h' => is_closed h'
  end.

(** What a call with key [k] does after the history [h]. *)
Definition expected (maxsize : option nat) (ce : bool) (h : history) (k : nat) : out :=
  if is_closed h then RClosed
  else if existsb (Nat.eqb k) (held maxsize h) then
    match last_started h k with
    | Some f =>
        match ended h f with
        | None => RJoin f                                    (* share the running computation *)
        | Some (OError e) => if ce then RNow (OError e) else RNew (started h)
        | Some o => RNow o
        end
    | None => RNew (started h)
    end
  else RNew (started h).

(** Calls since the last clear, that were accepted / that started a computation. *)
Fixpoint calls_since (h : history) : nat :=
  match h with
  | [] => 0
  | (EClear, _) :: _ => 0
  | (ECall _, RClosed) :: h' => calls_since h'
  | (ECall _, _) :: h' => S (calls_since h')
  | _ :: h' => calls_since h'
  end.
Fixpoint computed_since (h : history) : nat :=
  match h with
  | [] => 0
  | (EClear, _) :: _ => 0
  | (ECall _, RNew _) :: h' => S (computed_since h')
  | _ :: h' => computed_since h'
  end.

(** ** Proofs *)
Notation keys c := (rev (map (@fst nat nat) c)).

Lemma keys_app : forall c (x : nat * nat), keys (c ++ [x]) = fst x :: keys c.
Proof. intros. rewrite map_app, rev_app_distr. reflexivity. Qed.

Lemma keys_gdel : forall c k, keys (gdel Nat.eqb c k) = without k (keys c).
Proof.
  intros c k. unfold without. induction c as [|[k' f] c IH]; simpl; auto.
  rewrite filter_app. simpl. rewrite <- IH. destruct (Nat.eqb_spec k' k); simpl; auto. now rewrite app_nil_r.
Qed.

Lemma without_notin : forall k l, ~ In k l -> without k l = l.
Proof.
  induction l as [|x l IH]; simpl; intros H; auto. destruct (Nat.eqb_spec x k); simpl; [tauto|].
  f_equal. apply IH. tauto.
Qed.
Lemma without_In : forall k x l, In x (without k l) <-> x <> k /\ In x l.
Proof.
  intros. unfold without. rewrite filter_In. destruct (Nat.eqb_spec x k); simpl; intuition congruence.
Qed.
Lemma without_length : forall k l, NoDup l -> In k l -> S (length (without k l)) = length l.
Proof.
  induction l as [|x l IH]; simpl; intros N H; [tauto|]. apply NoDup_cons_iff in N. destruct N as [N1 N2].
  destruct (Nat.eqb_spec x k); simpl.
  - subst. fold (without k l). now rewrite without_notin.
  - fold (without k l). rewrite IH; auto. destruct H; congruence.
Qed.
Lemma without_NoDup : forall k l, NoDup l -> NoDup (without k l).
Proof. intros. now apply NoDup_filter. Qed.

Lemma firstn_NoDup : forall (l : list nat) n, NoDup l -> NoDup (firstn n l).
Proof.
  induction l as [|x l IH]; intros [|n] N; simpl; try constructor; apply NoDup_cons_iff in N; destruct N as [N1 N2].
  - intros H. apply N1. rewrite <- (firstn_skipn n l). apply in_or_app. auto.
  - auto.
Qed.
Lemma cut_NoDup : forall m l, NoDup l -> NoDup (cut m l).
Proof. intros [n|] l N; simpl; auto. now apply firstn_NoDup. Qed.
Lemma cut_In : forall m x l, In x (cut m l) -> In x l.
Proof. intros [n|] x l H; simpl in H; auto. rewrite <- (firstn_skipn n l). apply in_or_app. auto. Qed.
Definition fits (m : option nat) (n : nat) : Prop := match m with Some k => n <= k | None => True end.
Lemma cut_fits : forall m l, fits m (length (cut m l)).
Proof. intros [n|] l; simpl; auto. rewrite firstn_length. lia. Qed.
Lemma cut_id : forall m l, fits m (length l) -> cut m l = l.
Proof. intros [n|] l F; simpl in *; auto. now apply firstn_all2. Qed.

Lemma touch_keys : forall c k f, gget Nat.eqb c k = Some f -> keys (touch c k) = k :: without k (keys c).
Proof. intros c k f G. unfold touch. rewrite G, keys_app. simpl. now rewrite keys_gdel. Qed.

Lemma gdel_app_last : forall c (k f : nat), gget Nat.eqb c k = None -> gdel Nat.eqb (c ++ [(k, f)]) k = c.
Proof.
  induction c as [|[k' f'] c IH]; simpl; intros k f G.
  - now rewrite Nat.eqb_refl.
  - destruct (Nat.eqb_spec k' k); [discriminate|]. now rewrite IH.
Qed.
Lemma gget_app_last : forall c (k f : nat), gget Nat.eqb c k = None -> gget Nat.eqb (c ++ [(k, f)]) k = Some f.
Proof.
  induction c as [|[k' f'] c IH]; simpl; intros k f G.
  - now rewrite Nat.eqb_refl.
  - destruct (Nat.eqb_spec k' k); [discriminate|]. now apply IH.
Qed.
Lemma touch_last : forall c (k f : nat), gget Nat.eqb c k = None -> touch (c ++ [(k, f)]) k = c ++ [(k, f)].
Proof. intros. unfold touch. now rewrite gget_app_last, gdel_app_last. Qed.

Lemma gget_tl : forall c (k : nat), gget Nat.eqb c k = None -> gget Nat.eqb (tl c) k = (None : option nat).
Proof. intros [|[k' f'] c] k G; simpl in *; auto. destruct (k' =? k); [discriminate|auto]. Qed.

(** The cache after a computation has been started for a key that is not there. *)
Lemma compute_cache : forall m s c k, gget Nat.eqb c k = None -> fits m (length c) ->
  let c' := cache (compute m s c k) in
  keys c' = cut m (k :: keys c) /\
  (forall k' f, In (k', f) c' -> (k' = k /\ f = length (futs s)) \/ In (k', f) c).
Proof.
  intros m s c k G F. unfold compute. simpl. rewrite (gset_new _ _ _ _ G).
  destruct m as [n|].
  - simpl in F. rewrite app_length. simpl. destruct (n <? length c + 1) eqn:L.
    + apply Nat.ltb_lt in L. assert (length c = n) by lia. subst n. destruct c as [|x c]; simpl.
      * split; [reflexivity|intros ? ? []].
      * rewrite touch_last by (simpl in G; destruct x as [k' f']; destruct (k' =? k); [discriminate|auto]).
        split.
        -- rewrite keys_app. simpl. f_equal. rewrite firstn_app, rev_length, map_length, Nat.sub_diag. simpl.
           rewrite app_nil_r. rewrite firstn_all2; auto. rewrite rev_length, map_length. lia.
        -- intros k' f H. apply in_app_or in H. destruct H as [H|[H|[]]]; auto. injection H as <- <-. auto.
    + apply Nat.ltb_ge in L. rewrite touch_last by auto. split.
      * rewrite keys_app. simpl. symmetry. apply (cut_id (Some n)). simpl. rewrite rev_length, map_length. lia.
      * intros k' f H. apply in_app_or in H. destruct H as [H|[H|[]]]; auto. injection H as <- <-. auto.
  - rewrite touch_last by auto. split; [now rewrite keys_app|].
    intros k' f H. apply in_app_or in H. destruct H as [H|[H|[]]]; auto. injection H as <- <-. auto.
Qed.

Record inv (m : option nat) (s : st) (h : history) : Prop := {
  i_keys : keys (cache s) = held m h;
  i_nodup : NoDup (held m h);
  i_fit : fits m (length (held m h));
  i_last : forall k f, In (k, f) (cache s) -> last_started h k = Some f;
  i_len : length (futs s) = started h;
  i_futs : forall f, f < length (futs s) -> nth_error (futs s) f = Some (ended h f);
  i_later : forall f, length (futs s) <= f -> ended h f = None;
  i_lt : forall k f, last_started h k = Some f -> f < length (futs s);
  i_closed : closed s = is_closed h;
  i_calls : hits s + misses s = calls_since h;
  i_misses : misses s = computed_since h
}.

Lemma length_keys : forall m s h, inv m s h -> length (cache s) = length (held m h).
Proof. intros m s h I. rewrite <- (i_keys m s h I), rev_length, map_length. reflexivity. Qed.

Lemma gget_held : forall m s h k, inv m s h ->
  match gget Nat.eqb (cache s) k with
  | Some f => In k (held m h) /\ last_started h k = Some f /\ f < length (futs s)
  | None => ~ In k (held m h)
  end.
Proof.
  intros m s h k I. rewrite <- (i_keys m s h I). destruct (gget Nat.eqb (cache s) k) as [f|] eqn:G.
  - pose proof (gget_In _ Nat.eqb_spec _ _ _ G) as H. split; [|split].
    + rewrite <- in_rev. now apply (in_map fst) in H.
    + eapply i_last; eauto.
    + eapply i_lt; eauto. eapply i_last; eauto.
  - rewrite <- in_rev. apply (gget_None _ Nat.eqb_spec) in G. exact G.
Qed.

Lemma existsb_In : forall k l, existsb (Nat.eqb k) l = true <-> In k l.
Proof.
  intros. rewrite existsb_exists. split.
  - intros [x [H1 H2]]. apply Nat.eqb_eq in H2. now subst.
  - intros H. exists k. now rewrite Nat.eqb_refl.
Qed.

Lemma gdel_nget : forall c (k : nat), gget Nat.eqb (gdel Nat.eqb c k) k = (None : option nat).
Proof. intros. rewrite (gget_gdel _ Nat.eqb_spec). now rewrite Nat.eqb_refl. Qed.

Lemma use_NoDup : forall m k l, NoDup l -> NoDup (cut m (k :: without k l)).
Proof.
  intros. apply cut_NoDup. constructor; [|now apply without_NoDup]. rewrite without_In. tauto.
Qed.

(** A hit. *)
Lemma inv_hit : forall m s h k r, inv m s h -> In k (held m h) ->
  (exists o, r = RNow o) \/ (exists f, r = RJoin f) -> inv m (hit s k) ((ECall k, r) :: h).
Proof.
  intros m s h k r I H R.
  assert (HE : held m ((ECall k, r) :: h) = cut m (k :: without k (held m h)))
    by (destruct R as [[? ->]|[? ->]]; reflexivity).
  assert (HL : forall k', last_started ((ECall k, r) :: h) k' = last_started h k')
    by (intros; destruct R as [[? ->]|[? ->]]; reflexivity).
  assert (HN : forall f, ended ((ECall k, r) :: h) f = ended h f)
    by (intros; destruct R as [[? ->]|[? ->]]; reflexivity).
  assert (HF : fits m (length (k :: without k (held m h)))).
  { simpl. rewrite without_length; auto; [apply (i_fit _ _ _ I)|apply (i_nodup _ _ _ I)]. }
  assert (G := gget_held m s h k I). destruct (gget Nat.eqb (cache s) k) as [f|] eqn:E; [|tauto].
  constructor; rewrite ?HE; unfold hit; cbn [cache futs hits misses closed tasks].
  - rewrite (touch_keys _ _ _ E), (i_keys _ _ _ I). now rewrite cut_id.
  - apply use_NoDup. apply (i_nodup _ _ _ I).
  - apply cut_fits.
  - intros k' f' H'. rewrite HL. eapply i_last; eauto. unfold touch in H'. rewrite E in H'.
    apply in_app_or in H'. destruct H' as [H'|[H'|[]]].
    + apply (In_gdel _ Nat.eqb_spec) in H'. tauto.
    + injection H' as <- <-. now apply (gget_In _ Nat.eqb_spec).
  - rewrite (i_len _ _ _ I). destruct R as [[? ->]|[? ->]]; reflexivity.
  - intros. rewrite HN. apply (i_futs _ _ _ I); auto.
  - intros. rewrite HN. apply (i_later _ _ _ I); auto.
  - intros k' f'. rewrite HL. apply (i_lt _ _ _ I).
  - rewrite (i_closed _ _ _ I). destruct R as [[? ->]|[? ->]]; reflexivity.
  - cbn [plus]; rewrite (i_calls _ _ _ I). destruct R as [[? ->]|[? ->]]; reflexivity.
  - rewrite (i_misses _ _ _ I). destruct R as [[? ->]|[? ->]]; reflexivity.
Qed.

(** A computation is started; [c] is the cache without the key. *)
Lemma inv_new : forall m s h k c, inv m s h ->
  gget Nat.eqb c k = None -> keys c = without k (held m h) -> (forall x, In x c -> In x (cache s)) ->
  inv m (compute m s c k) ((ECall k, RNew (length (futs s))) :: h).
Proof.
  intros m s h k c I G KC SUB.
  assert (F : fits m (length c)).
  { pose proof (i_fit _ _ _ I) as F. rewrite <- (map_length fst c), <- (rev_length (map fst c)), KC.
    assert (L : length (without k (held m h)) <= length (held m h)).
    { unfold without. generalize (held m h). induction l as [|x l IH]; simpl; [lia|].
      destruct (negb (x =? k)); simpl; lia. }
    destruct m; simpl in *; auto; lia. }
  destruct (compute_cache m s c k G F) as [K1 K2].
  assert (FL : length (futs (compute m s c k)) = S (length (futs s)))
    by (simpl; rewrite app_length; simpl; lia).
  constructor; rewrite ?FL.
  - rewrite K1, KC. reflexivity.
  - simpl. apply use_NoDup. apply (i_nodup _ _ _ I).
  - simpl held. apply cut_fits.
  - intros k' f H. simpl. destruct (K2 _ _ H) as [[-> ->]|H'].
    + now rewrite Nat.eqb_refl.
    + destruct (Nat.eqb_spec k k') as [->|N].
      * exfalso. apply (gget_None _ Nat.eqb_spec) in G. apply G. now apply (in_map fst) in H'.
      * eapply i_last; eauto.
  - simpl. now rewrite (i_len _ _ _ I).
  - intros f L. simpl. destruct (Nat.eq_dec f (length (futs s))) as [->|N].
    + rewrite nth_error_app2 by lia. rewrite Nat.sub_diag. simpl. now rewrite (i_later _ _ _ I).
    + rewrite nth_error_app1 by lia. apply (i_futs _ _ _ I). lia.
  - intros f L. simpl. apply (i_later _ _ _ I). lia.
  - intros k' f H. simpl in H. destruct (k =? k'); [injection H as <-; lia|]. apply (i_lt _ _ _ I) in H. lia.
  - simpl. apply (i_closed _ _ _ I).
  - simpl. rewrite <- (i_calls _ _ _ I). lia.
  - simpl. now rewrite (i_misses _ _ _ I).
Qed.

(** Events that neither use nor start anything. *)
Lemma call_expected : forall m ce s h k, inv m s h ->
  snd (call m ce s k) = expected m ce h k /\ inv m (fst (call m ce s k)) ((ECall k, expected m ce h k) :: h).
Proof.
  intros m ce s h k I. unfold call, expected. rewrite <- (i_closed _ _ _ I). destruct (closed s) eqn:C.
  - split; auto. simpl. destruct I. constructor; simpl; auto.
  - assert (G := gget_held m s h k I). destruct (gget Nat.eqb (cache s) k) as [f|] eqn:E.
    + destruct G as [G1 [G2 G3]]. rewrite (proj2 (existsb_In k (held m h)) G1), G2.
      rewrite (i_futs _ _ _ I f G3). destruct (ended h f) as [[v|e|]|] eqn:EN; simpl.
      * split; auto. apply inv_hit; eauto.
      * destruct ce; simpl.
        -- split; auto. apply inv_hit; eauto.
        -- rewrite (i_len _ _ _ I). split; auto. rewrite <- (i_len _ _ _ I).
           apply inv_new; auto; [apply gdel_nget| |].
           ++ rewrite keys_gdel. now rewrite (i_keys _ _ _ I).
           ++ intros [k' f'] H. apply (In_gdel _ Nat.eqb_spec) in H. tauto.
      * split; auto. apply inv_hit; eauto.
      * split; auto. apply inv_hit; eauto.
    + replace (existsb (Nat.eqb k) (held m h)) with false.
      * simpl. rewrite (i_len _ _ _ I). split; auto. rewrite <- (i_len _ _ _ I).
        apply inv_new; auto. rewrite (i_keys _ _ _ I). now rewrite without_notin.
      * symmetry. apply not_true_is_false. rewrite existsb_In. exact G.
Qed.

Lemma inv_init : forall m, inv m init [].
Proof.
  intros m. constructor; simpl; auto; try constructor; try tauto; try lia; try discriminate.
  destruct m; simpl; auto; lia.
Qed.

Lemma inv_step : forall m ce s h e s' r, inv m s h -> step m ce s e = (s', r) -> inv m s' ((e, r) :: h).
Proof.
  intros m ce s h e s' r I S. destruct e as [k|f o|k| | |]; simpl in S.
  - destruct (call_expected m ce s h k I) as [E N]. rewrite S in E, N. simpl in *. now subst.
  - destruct (nth_error (futs s) f) as [[o'|]|] eqn:E; injection S as <- <-;
      try (destruct I; constructor; simpl; auto; fail).
    assert (L : f < length (futs s)) by (apply nth_error_Some; congruence).
    destruct I. constructor; simpl; auto; try (rewrite ?lset_length; auto; fail).
    + intros f' L'. rewrite lset_length in L'. rewrite nth_error_lset.
      destruct (Nat.eqb_spec f f') as [->|N].
      * apply Nat.ltb_lt in L. now rewrite L.
      * auto.
    + intros f' L'. rewrite lset_length in L'. destruct (Nat.eqb_spec f f'); [lia|auto].
  - assert (G := gget_held m s h k I). destruct (gget Nat.eqb (cache s) k) as [f|] eqn:E; injection S as <- <-.
    + destruct I. constructor; simpl; auto.
      * now rewrite keys_gdel, i_keys0.
      * now apply without_NoDup.
      * destruct m as [n|]; simpl in *; auto.
        assert (length (without k (held (Some n) h)) <= length (held (Some n) h)).
        { unfold without. generalize (held (Some n) h). induction l as [|x l IH]; simpl; [lia|].
          destruct (negb (x =? k)); simpl; lia. }
        lia.
      * intros k' f' H. apply (In_gdel _ Nat.eqb_spec) in H. destruct H. auto.
    + destruct I. constructor; simpl; auto; rewrite ?without_notin; auto.
  - injection S as <- <-. destruct I. constructor; simpl; auto.
    + constructor.
    + destruct m; simpl; auto; lia.
    + tauto.
  - destruct (closed s) eqn:C; injection S as <- <-; destruct I; constructor; simpl; auto; congruence.
  - destruct (closed s) eqn:C; simpl in S.
    + destruct ((hits s =? 0) && (misses s =? 0) && (length (tasks s) =? 0) && (length (cache s) =? 0));
        injection S as <- <-; destruct I; constructor; simpl; auto; congruence.
    + injection S as <- <-. destruct I; constructor; simpl; auto; congruence.
Qed.

Lemma reach_inv : forall m ce s h, reach m ce s h -> inv m s h.
Proof. induction 1; [apply inv_init|eapply inv_step; eauto]. Qed.

(** ** C25 *)

(** In every reachable state, every next call does what the history says: it
    returns the outcome of the last computation started for this very key (or
    waits for it, if it runs) when the key is among the at most maxsize most
    recently used ones, and computes otherwise. *)
Theorem C25_calls_answer_from_history : forall maxsize ce s h k, reach maxsize ce s h ->
  snd (step maxsize ce s (ECall k)) = expected maxsize ce h k.
Proof. intros m ce s h k R. apply call_expected. eapply reach_inv; eauto. Qed.

(** The size reported by cache_info is the number of keys held, at most maxsize;
    hits + misses are the calls since the last clear, misses the computations. *)
Theorem C25_cache_info : forall maxsize ce s h, reach maxsize ce s h ->
  match cache_info s with
  | (hits, misses, size) =>
      hits + misses = calls_since h /\ misses = computed_since h /\ size = length (held maxsize h) /\
      match maxsize with Some n => size <= n | None => True end
  end.
Proof.
  intros m ce s h R. apply reach_inv in R. simpl. rewrite (length_keys _ _ _ R).
  split; [apply (i_calls _ _ _ R)|]. split; [apply (i_misses _ _ _ R)|]. split; auto.
  exact (i_fit _ _ _ R).
Qed.

(** invalidate tells whether the key was held. *)
Theorem C25_invalidate : forall maxsize ce s h k, reach maxsize ce s h ->
  snd (step maxsize ce s (EInvalidate k)) = RBool (existsb (Nat.eqb k) (held maxsize h)).
Proof.
  intros m ce s h k R. apply reach_inv in R. simpl. assert (G := gget_held m s h k R).
  destruct (gget Nat.eqb (cache s) k); simpl; f_equal.
  - symmetry. apply existsb_In. tauto.
  - symmetry. apply not_true_is_false. now rewrite existsb_In.
Qed.

(** [held] is LRU: without invalidations the keys held are the [maxsize] last used
    different keys. *)
Fixpoint uses (h : history) : list nat :=
  match h with
  | [] => []
  | (ECall k, RClosed) :: h' => uses h'
  | (ECall k, _) :: h' => k :: uses h'
  | (EClear, _) :: _ => []
  | _ :: h' => uses h'
  end.
(** First occurrences only. *)
Fixpoint nub (l : list nat) : list nat :=
  match l with [] => [] | x :: l' => x :: without x (nub l') end.
Definition no_invalidate (h : history) : Prop := forall k r, ~ In (EInvalidate k, r) h.

Lemma firstn_without : forall k l n, NoDup l ->
  firstn n (k :: without k (firstn n l)) = firstn n (k :: without k l).
Proof.
  intros k l n N. destruct n as [|n]; auto. cbn [firstn]. f_equal.
  revert n N. induction l as [|x l IH]; intros n N; cbn [firstn]; auto.
  apply NoDup_cons_iff in N. destruct N as [N1 N2]. simpl. destruct (Nat.eqb_spec x k); simpl.
  - subst. fold (without k l) (without k (firstn n l)). rewrite !without_notin; auto.
    + now rewrite firstn_firstn, Nat.min_id.
    + intros H. apply N1. rewrite <- (firstn_skipn n l). apply in_or_app. auto.
  - destruct n as [|n]; auto. cbn [firstn]. f_equal. fold (without k l).
    specialize (IH n N2). exact IH.
Qed.
Lemma nub_NoDup : forall l, NoDup (nub l).
Proof.
  induction l; simpl; constructor; [rewrite without_In; tauto|now apply without_NoDup].
Qed.

Theorem C25_held_are_the_last_used : forall maxsize h, no_invalidate h ->
  held maxsize h = cut maxsize (nub (uses h)).
Proof.
  intros m h. induction h as [|[e r] h IH]; intros N.
  - simpl. destruct m as [[|n]|]; reflexivity.
  - assert (N' : no_invalidate h) by (intros k r' H; apply (N k r'); now right). specialize (IH N').
    destruct e as [k|f o|k| | |]; try exact IH.
    + assert (U : held m h = cut m (nub (uses h)) ->
        cut m (k :: without k (held m h)) = cut m (k :: without k (nub (uses h)))).
      { intros ->. destruct m as [n|]; simpl cut; auto. apply firstn_without. apply nub_NoDup. }
      destruct r; simpl; auto.
    + exfalso. apply (N k r). now left.
    + simpl. destruct m as [[|n]|]; reflexivity.
Qed.

(** A value that a call returns was computed for its own key, by the last
    computation started for it. *)
Theorem C25_value_is_of_this_key : forall maxsize ce s h k s' r, reach maxsize ce s h ->
  step maxsize ce s (ECall k) = (s', r) ->
  match r with
  | RNow o => exists f, last_started h k = Some f /\ ended h f = Some o
  | RJoin f => last_started h k = Some f /\ ended h f = None
  | RNew f => ended h f = None /\ forall k', last_started h k' <> Some f
  | _ => r = RClosed /\ is_closed h = true
  end.
Proof.
  intros m ce s h k s' r R S. pose proof (C25_calls_answer_from_history m ce s h k R) as E.
  rewrite S in E. simpl in E. subst r. apply reach_inv in R. unfold expected.
  assert (FR : ended h (started h) = None /\ forall k', last_started h k' <> Some (started h)).
  { rewrite <- (i_len _ _ _ R). split; [apply (i_later _ _ _ R); lia|].
    intros k' H. apply (i_lt _ _ _ R) in H. lia. }
  destruct (is_closed h); auto. destruct (existsb (Nat.eqb k) (held m h)); auto.
  destruct (last_started h k) as [f|] eqn:L; auto.
  destruct (ended h f) as [[v|e|]|] eqn:EN; eauto. destruct ce; eauto.
Qed.

(** A closed cache can be opened again exactly when nothing was called since it was
    cleared; close is refused iff it is closed already. *)
Lemma fresh_empty : forall m ce s h, reach m ce s h -> calls_since h = 0 -> tasks s = [] /\ cache s = [].
Proof.
  intros m ce s h R. induction R as [|s h e s' r R IH S]; [auto|]. intros C.
  pose proof (reach_inv _ _ _ _ R) as I.
  destruct e as [k|f o|k| | |]; simpl in S.
  - destruct (call_expected m ce s h k I) as [E _]. rewrite S in E. simpl in E. subst r.
    unfold call in S. unfold expected in *. rewrite <- (i_closed _ _ _ I) in *. destruct (closed s).
    + injection S as <-. apply IH. exact C.
    + exfalso. destruct (existsb (Nat.eqb k) (held m h)); [|discriminate C].
      destruct (last_started h k) as [f|]; [|discriminate C].
      destruct (ended h f) as [[v|x|]|]; try discriminate C. destruct ce; discriminate C.
  - destruct (nth_error (futs s) f) as [[o'|]|]; injection S as <- <-; destruct (IH C) as [T K]; auto.
    cbn [tasks cache]. now rewrite T.
  - destruct (gget Nat.eqb (cache s) k) eqn:G; injection S as <- <-; destruct (IH C) as [T K]; auto.
    cbn [tasks cache]. now rewrite K.
  - injection S as <- <-. auto.
  - destruct (closed s); injection S as <- <-; destruct (IH C); auto.
  - destruct (negb (closed s)); [injection S as <- <-; auto|].
    destruct ((hits s =? 0) && (misses s =? 0) && (length (tasks s) =? 0) && (length (cache s) =? 0));
      injection S as <- <-; destruct (IH C); auto.
Qed.
Theorem C25_open : forall maxsize ce s h, reach maxsize ce s h ->
  snd (step maxsize ce s EOpen) = (if is_closed h && (calls_since h =? 0) then ROk else RError) /\
  snd (step maxsize ce s EClose) = (if is_closed h then RError else ROk).
Proof.
  intros m ce s h R. pose proof (reach_inv _ _ _ _ R) as I. cbn [step]. rewrite <- (i_closed _ _ _ I).
  destruct (closed s); cbn [negb andb snd]; split; auto.
  pose proof (i_calls _ _ _ I) as C. destruct (Nat.eqb_spec (calls_since h) 0) as [Z|N].
  - destruct (fresh_empty _ _ _ _ R Z) as [-> ->]. cbn [length Nat.eqb].
    replace (hits s) with 0 by lia. now replace (misses s) with 0 by lia.
  - destruct (Nat.eqb_spec (hits s) 0); cbn [andb]; [|reflexivity].
    destruct (Nat.eqb_spec (misses s) 0); [exfalso; lia|reflexivity].
Qed.

(** ** C26 *)

(** In full: with cache_exceptions off, after a computation for [k] has failed or
    was cancelled, the next call with [k] computes again. *)
Definition bad (o : outcome) : Prop := match o with OValue _ => False | _ => True end.
Definition C26_claim : Prop := forall maxsize s h k f o, reach maxsize false s h ->
  is_closed h = false -> last_started h k = Some f -> ended h f = Some o -> bad o ->
  exists f', snd (step maxsize false s (ECall k)) = RNew f'.

(** Proved: for computations that failed. *)
Theorem C26_failed_is_computed_again_partial : forall maxsize s h k f e, reach maxsize false s h ->
  is_closed h = false -> last_started h k = Some f -> ended h f = Some (OError e) ->
  snd (step maxsize false s (ECall k)) = RNew (started h).
Proof.
  intros m s h k f e R C L E. rewrite (C25_calls_answer_from_history m false s h k R).
  unfold expected. rewrite C, L, E. now destruct (existsb (Nat.eqb k) (held m h)).
Qed.

(** What is missing: a cancelled computation is answered from the cache, as
    CancelledError, to every later call while the key is held. *)
Theorem C26_cancelled_stays_cached_partial : forall maxsize s h k f, reach maxsize false s h ->
  is_closed h = false -> In k (held maxsize h) -> last_started h k = Some f -> ended h f = Some OCancelled ->
  snd (step maxsize false s (ECall k)) = RNow OCancelled.
Proof.
  intros m s h k f R C H L E. rewrite (C25_calls_answer_from_history m false s h k R).
  unfold expected. rewrite C, L, E. now rewrite (proj2 (existsb_In k (held m h)) H).
Qed.

Module Demo.
  Fixpoint run (m : option nat) (ce : bool) (s : st) (h : history) (l : list ev) : st * history :=
    match l with
    | [] => (s, h)
    | e :: l' => let (s', r) := step m ce s e in run m ce s' ((e, r) :: h) l'
    end.
  Lemma run_reach : forall m ce l s h, reach m ce s h -> reach m ce (fst (run m ce s h l)) (snd (run m ce s h l)).
  Proof.
    induction l as [|e l IH]; intros s h R; simpl; auto.
    destruct (step m ce s e) as [s' r] eqn:E. apply IH. econstructor; eauto.
  Qed.

  (** maxsize 2: keys 1, 2, 1 again, 3 (2 is dropped); 1 failed with cache_exceptions off *)
  Definition calls := [ECall 1; ECall 2; ECall 1; ECall 3; EDone 0 (OError 7); EDone 2 (OValue 5)].
  Definition sh := run (Some 2) false init [] calls.
  Example reachable : reach (Some 2) false (fst sh) (snd sh).
  Proof. apply run_reach. constructor. Qed.
  Example holds : held (Some 2) (snd sh) = [3; 1] /\ cache_info (fst sh) = (1, 3, 2) /\
    no_invalidate (snd sh) /\
    snd (step (Some 2) false (fst sh) (ECall 3)) = RNow (OValue 5) /\
    snd (step (Some 2) false (fst sh) (ECall 2)) = RNew 3 /\
    snd (step (Some 2) false (fst sh) (ECall 1)) = RNew 3 /\
    snd (step (Some 2) false (fst (run (Some 2) false (fst sh) (snd sh) [EClose; EClear])) EOpen) = ROk /\
    snd (step (Some 2) false (fst (run (Some 2) false (fst sh) (snd sh) [EClose])) EOpen) = RError /\
    is_closed (snd sh) = false /\ last_started (snd sh) 1 = Some 0 /\ ended (snd sh) 0 = Some (OError 7).
  Proof.
    repeat split. intros k r H. simpl in H.
    repeat (destruct H as [H|H]; [discriminate|]). exact H.
  Qed.
End Demo.

Theorem C26_cancelled_refuted : ~ C26_claim.
Proof.
  intros C.
  pose (sh := Demo.run (Some 2) false init [] [ECall 1; EDone 0 OCancelled]).
  assert (R : reach (Some 2) false (fst sh) (snd sh)) by (apply Demo.run_reach; constructor).
  destruct (C (Some 2) (fst sh) (snd sh) 1 0 OCancelled R eq_refl eq_refl eq_refl I) as [f H].
  discriminate.
Qed.

Print Assumptions C25_calls_answer_from_history.
Print Assumptions C25_cache_info.
Print Assumptions C25_invalidate.
Print Assumptions C25_held_are_the_last_used.
Print Assumptions C25_value_is_of_this_key.
Print Assumptions C25_open.
Print Assumptions C26_failed_is_computed_again_partial.
Print Assumptions C26_cancelled_stays_cached_partial.
Print Assumptions C26_cancelled_refuted.
