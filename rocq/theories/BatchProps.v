(** C13: batch and single call agree.

    Specification.  [want a k] is what the method is meant to give for one call.
    A batch answer is [right] for a list of calls if it is the list of their
    values, in order, or, when some call fails, the error of a failing call.  The
    user's functions [agree] with [want]: the function gives [want], or raises
    NotImplementedError if there is a batch function; the batch function gives a
    [right] answer for every list of calls. *)
From Coq Require Import List Arith Bool Lia.
From Verif Require Import BatchModel.
Import ListNotations.

Section Spec.
  Variable V : Type.
  Variable none : V.
  Variable want : args -> kwargs -> outcome V.

  Definition calls := list (args * kwargs).
  Definition right (cs : calls) (r : outcome (option (list V))) : Prop :=
    match r with
    | Ok (Some vs) => map (fun c => want (fst c) (snd c)) cs = map Ok vs
    | Ok None => False
    | Raise e => exists a k, In (a, k) cs /\ want a k = Raise e
    end.
  Definition agrees (u : user V) : Prop :=
    (forall a k, func u a k = want a k \/ (func u a k = Raise NotImplementedError /\ batch_func u <> None)) /\
    (forall b, batch_func u = Some b -> forall cs, cs <> [] -> right cs (b (map fst cs) (map snd cs))).

  Lemma combine_map : forall cs : calls, combine (map fst cs) (map snd cs) = cs.
  Proof. induction cs as [|[a k] cs IH]; simpl; congruence. Qed.

  Lemma call_right : forall u a k, agrees u -> snd (call V none u true a k) = want a k.
  Proof.
    intros u a k [A B]. unfold call. destruct (batch_func u) as [b|] eqn:E.
    - assert (R := B b eq_refl [(a, k)] ltac:(discriminate)). simpl in R.
      assert (X : match b [a] [k] with
        | Raise e => Raise e
        | Ok None => if is_async u then Ok none else Raise TypeError
        | Ok (Some []) => Raise IndexError
        | Ok (Some (v :: _)) => Ok v end = want a k).
      { destruct (b [a] [k]) as [[[|v vs]|]|e]; simpl in R.
        - discriminate.
        - injection R as R _. now rewrite R.
        - contradiction.
        - destruct R as [a' [k' [[Q|[]] W]]]. injection Q as <- <-. now rewrite W. }
      destruct (A a k) as [F|[F _]]; rewrite F; simpl; auto. destruct (want a k) as [v|[]]; auto.
    - destruct (A a k) as [F|[F N]]; [|congruence]. rewrite F. destruct (want a k) as [v|[]]; auto.
  Qed.

  Lemma each_want : forall u cs, agrees u -> batch_func u = None ->
    each V u (map fst cs) (map snd cs) = map (fun c => want (fst c) (snd c)) cs.
  Proof.
    intros u cs [A _] N. unfold each. rewrite combine_map. apply map_ext. intros [a k].
    destruct (A a k) as [F|[_ F]]; [exact F|congruence].
  Qed.

  Lemma in_turn_right : forall cs : calls,
    right cs (wrap V (in_turn V (map (fun c => want (fst c) (snd c)) cs))).
  Proof.
    induction cs as [|[a k] cs IH]; simpl; auto. destruct (want a k) as [v|e] eqn:W; simpl.
    - destruct (in_turn V (map (fun c => want (fst c) (snd c)) cs)) as [vs|e]; simpl in *.
      + now rewrite W, IH.
      + destruct IH as [a' [k' [H1 H2]]]. exists a', k'. auto.
    - exists a, k. auto.
  Qed.

  Lemma lists_right : forall u cs r, agrees u ->
    call_lists V none u true (map fst cs) (map snd cs) r -> right cs r.
  Proof.
    intros u cs r A C. remember (map fst cs) as al. remember (map snd cs) as kl. destruct C as [E|a k AS E1 E2|b NE L E|r NE AS L E G|NE AS E].
    - subst. destruct cs; [reflexivity|discriminate].
    - subst. destruct cs as [|[a' k'] [|c cs]]; try discriminate. simpl in E1, E2. injection E1 as ->. injection E2 as ->.
      rewrite (call_right u a k A). destruct (want a k) as [v|e] eqn:W; simpl; [now rewrite W|].
      exists a, k. auto.
    - subst. apply A; auto. intros ->. now apply NE.
    - subst. rewrite each_want in G by auto. inversion G as [vs Q|os e HI]; subst; simpl.
      + auto.
      + apply in_map_iff in HI. destruct HI as [[a k] [W HI]]. exists a, k. auto.
    - subst. rewrite each_want by auto. apply in_turn_right.
  Qed.

  (** The other direction: a batch gives an answer. *)
  Lemma lists_answer : forall u cs, exists r, call_lists V none u true (map fst cs) (map snd cs) r.
  Proof.
    intros u cs. destruct cs as [|c cs]; [exists (Ok (Some [])); now constructor|].
    destruct (is_async u) eqn:AS.
    - destruct cs as [|c' cs].
      + eexists. eapply b_one; auto; reflexivity.
      + destruct (batch_func u) as [b|] eqn:B.
        * eexists. eapply b_batch; eauto; simpl; discriminate.
        * set (l := c :: c' :: cs).
          assert (G : exists g, gather V (each V u (map fst l) (map snd l)) g).
          { generalize (each V u (map fst l) (map snd l)). intros os.
            assert (X : (exists vs, os = map Ok vs) \/ exists e, In (Raise e) os).
            { induction os as [|[v|e] os IH]; [left; now exists []| |right; exists e; now left].
              destruct IH as [[vs ->]|[e IH]]; [left; now exists (v :: vs)|right; exists e; now right]. }
            destruct X as [[vs ->]|[e X]]; eexists; [apply g_ok|apply g_err; exact X]. }
          destruct G as [g G]. exists (wrap V g). eapply b_gather; eauto; unfold l; simpl; try discriminate.
    - destruct (batch_func u) as [b|] eqn:B.
      + eexists. eapply b_batch; eauto; simpl; [discriminate|congruence].
      + eexists. eapply b_turn; eauto. discriminate.
  Qed.
End Spec.

(** *** Through references *)
Section Remote.
  Variable V : Type.
  Variable none : V.
  Variable want : nat -> args -> kwargs -> outcome V.      (** by method *)
  Variable actor : nat -> user V.
  Definition calls_of (ds : list delay) : calls := map (fun d => (snd (fst d), snd d)) ds.
  Definition method (d : delay) : nat := fst (fst d).

  Lemma collect_ok : forall ds last r, collect last ds = Ok r ->
    snd (fst r) = map fst (calls_of ds) /\ snd r = map snd (calls_of ds) /\
    (forall d, In d ds -> fst (fst r) = Some (method d)) /\
    (forall m, last = Some m -> fst (fst r) = Some m) /\ (ds = [] -> fst (fst r) = last).
  Proof.
    induction ds as [|[[m a] k] ds IH]; intros last r C; simpl in C.
    - injection C as <-. simpl. repeat split; auto. intros d [].
    - assert (X : (forall m', last = Some m' -> m' = m) /\ exists l al kl,
        collect (Some m) ds = Ok (l, al, kl) /\ r = (l, a :: al, k :: kl)).
      { destruct last as [m'|].
        - destruct (Nat.eqb_spec m m'); [|discriminate]. subst m'. split; [congruence|].
          destruct (collect (Some m) ds) as [[[l al] kl]|]; [|discriminate]. injection C as <-. eauto 6.
        - split; [discriminate|].
          destruct (collect (Some m) ds) as [[[l al] kl]|]; [|discriminate]. injection C as <-. eauto 6. }
      destruct X as [L [l [al [kl [E ->]]]]]. destruct (IH _ _ E) as [H1 [H2 [H3 [H4 H5]]]]. simpl in *.
      rewrite H1, H2. repeat split; auto.
      + intros d [<-|H]; [now apply H4|auto].
      + intros m' Q. rewrite (L _ Q). now apply H4.
      + discriminate.
  Qed.
  Lemma collect_same : forall ds m last, (forall d, In d ds -> method d = m) -> (forall m', last = Some m' -> m' = m) ->
    exists r, collect last ds = Ok r.
  Proof.
    induction ds as [|[[m' a] k] ds IH]; intros m last H L; simpl; eauto.
    assert (M : m' = m) by (apply (H (m', a, k)); now left). subst m'.
    destruct (IH m (Some m)) as [[[l al] kl] E]; [intros d Hd; apply H; now right|congruence|].
    rewrite E. destruct last as [m'|]; eauto. rewrite (L m' eq_refl), Nat.eqb_refl. eauto.
  Qed.

  (** Dropping empty keyword dictionaries loses nothing. *)
  Lemma no_kw : forall (cs : calls), existsb (fun k : kwargs => match k with [] => false | _ => true end) (map snd cs) = false ->
    map (fun _ : args => [] : kwargs) (map fst cs) = map snd cs.
  Proof.
    induction cs as [|[a k] cs IH]; simpl; auto. destruct k; simpl; [|discriminate]. intros E. now rewrite IH.
  Qed.

  (** C13: a batch through a reference, of calls of one extensible method [m]
      (which may be another method than the one [batch] is called on) whose
      functions agree, gives the values of the single calls in order, or the
      error of one of the calls that fail. *)
  Theorem C13_batch_gives_single_results : forall ds m r, ds <> [] ->
    (forall d, In d ds -> method d = m) -> agrees V (want m) (actor m) ->
    forall self, remote_batch V none actor self ds r -> right V (want m) (calls_of ds) r.
  Proof.
    intros ds m r NE M A self B. destruct (collect_same ds m None M ltac:(discriminate)) as [[[l al] kl] C].
    destruct (collect_ok _ _ _ C) as [H1 [H2 [H3 _]]]. simpl in *. subst al kl.
    assert (L : l = Some m). { destruct ds as [|d ds]; [congruence|]. rewrite (H3 d); [|now left]. f_equal. apply M. now left. }
    destruct B as [e E|msg r E S]; unfold batch_message in E; rewrite C in E; [discriminate|].
    subst l. injection E as <-. inversion S as [m' al okl r' CL]; subst.
    apply (lists_right V none (want m) (actor m)); auto.
    match type of CL with context [existsb ?f ?l] => destruct (existsb f l) eqn:X end; auto. now rewrite no_kw in CL.
  Qed.

  (** It is answered, and one call gives what the method is meant to give. *)
  Theorem C13_batch_is_answered : forall ds self, exists r, remote_batch V none actor self ds r.
  Proof.
    intros ds self. destruct (batch_message self ds) as [[[m al] okl]|e] eqn:E; [|exists (Raise e); now constructor].
    unfold batch_message in E. destruct (collect None ds) as [[[l al'] kl']|] eqn:C; [|discriminate].
    destruct (collect_ok _ _ _ C) as [H1 [H2 _]]. simpl in *. subst al' kl'. injection E as E1 E2 E3. subst al.
    destruct (lists_answer V none (actor m) (calls_of ds)) as [r R]. exists r.
    eapply rb_ok with (msg := (m, map fst (calls_of ds), okl)).
    - unfold batch_message. rewrite C. congruence.
    - constructor. subst okl. match goal with |- context [existsb ?f ?l] => destruct (existsb f l) eqn:X end; auto. now rewrite no_kw.
  Qed.
  Theorem C13_single_call : forall m a k, agrees V (want m) (actor m) ->
    remote_call V none actor m a k = want m a k.
  Proof. intros. apply call_right. auto. Qed.

  (** Calls of different methods are refused; a batch of no calls is the empty list. *)
  Theorem C13_mixed_methods_refused : forall ds1 d1 ds2 d2 ds3 self r, method d1 <> method d2 ->
    remote_batch V none actor self (ds1 ++ d1 :: ds2 ++ d2 :: ds3) r -> r = Raise ValueError.
  Proof.
    intros ds1 d1 ds2 d2 ds3 self r N B.
    destruct (collect None (ds1 ++ d1 :: ds2 ++ d2 :: ds3)) as [x|e] eqn:C.
    - exfalso. destruct (collect_ok _ _ _ C) as [_ [_ [H3 _]]].
      assert (Q1 := H3 d1 ltac:(apply in_or_app; right; now left)).
      assert (Q2 := H3 d2 ltac:(apply in_or_app; right; right; apply in_or_app; right; now left)). congruence.
    - assert (E : e = ValueError).
      { clear B N. revert C. generalize (ds1 ++ d1 :: ds2 ++ d2 :: ds3). generalize (@None nat). intros o l. revert o.
        induction l as [|[[m a] k] l IH]; simpl; intros o C; [discriminate|].
        destruct o as [m'|].
        - destruct (m =? m'); [|congruence]. destruct (collect (Some m) l) as [[[? ?] ?]|] eqn:E; [discriminate|].
          injection C as <-. eapply IH; eauto.
        - destruct (collect (Some m) l) as [[[? ?] ?]|] eqn:E; [discriminate|]. injection C as <-. eapply IH; eauto. }
      subst e. destruct B as [e E|msg r E S]; unfold batch_message in E; rewrite C in E; congruence.
  Qed.
  Theorem C13_empty_batch : forall self r, remote_batch V none actor self [] r -> r = Ok (Some []).
  Proof.
    intros self r B. destruct B as [e E|msg r E S]; simpl in E; [discriminate|]. injection E as <-.
    inversion S as [m al okl r' CL]; subst. inversion CL; subst; auto; try discriminate; congruence.
  Qed.
End Remote.

(** *** Wrappers that are kept (not through references): a sequence of calls on one *)
Section Held.
  Variable V : Type.
  Variable none : V.
  Fixpoint run (u : user V) (single : bool) (cs : calls) : list (outcome V) :=
    match cs with
    | [] => []
    | (a, k) :: cs' => let (s, o) := call V none u single a k in o :: run u s cs'
    end.

  Definition C13_held_claim : Prop := forall want u cs, agrees V want u ->
    run u true cs = map (fun c => want (fst c) (snd c)) cs.

  (** Proved if there is a batch function, or the function never raises
      NotImplementedError. *)
  Theorem C13_held_wrapper_partial : forall want u cs, agrees V want u ->
    batch_func u <> None \/ (forall a k, func u a k <> Raise NotImplementedError) ->
    run u true cs = map (fun c => want (fst c) (snd c)) cs.
  Proof.
    intros want u cs A H.
    assert (ANY : forall cs b, b = true \/ batch_func u <> None -> run u b cs = map (fun c => want (fst c) (snd c)) cs).
    { clear cs. induction cs as [|[a k] cs IH]; intros b HB; simpl; auto.
      assert (C1 : snd (call V none u true a k) = want a k) by now apply call_right.
      assert (C : snd (call V none u b a k) = want a k).
      { destruct b; auto. destruct HB as [HB|HB]; [discriminate|].
        (* the batch function alone is right too *)
        destruct A as [A B]. unfold call. destruct (batch_func u) as [f|] eqn:E; [|congruence]. simpl.
        assert (R := B f eq_refl [(a, k)] ltac:(discriminate)). simpl in R.
        destruct (f [a] [k]) as [[[|v vs]|]|e]; simpl in R.
        - discriminate.
        - injection R as R _. now rewrite R.
        - contradiction.
        - destruct R as [a' [k' [[Q|[]] W]]]. injection Q as <- <-. now rewrite W. }
      destruct (call V none u b a k) as [s o] eqn:E. simpl in C. subst o. f_equal. apply IH.
      destruct (batch_func u) as [f|] eqn:BF; [right; discriminate|]. left.
      destruct HB as [->|HB]; [|congruence]. unfold call in E. rewrite BF in E.
      destruct H as [H|H]; [congruence|]. specialize (H a k).
      destruct (func u a k) as [v|[]]; try congruence; injection E as <- _; auto. }
    apply ANY. auto.
  Qed.
End Held.

(** Refuted otherwise: after one NotImplementedError the function is never tried
    again on this wrapper. *)
Theorem C13_held_wrapper_refuted : ~ C13_held_claim nat 0.
Proof.
  intros C.
  pose (f := fun (a : args) (k : kwargs) => match a with [] => Raise NotImplementedError | x :: _ => Ok x end).
  assert (A : agrees nat f {| func := f; batch_func := None; is_async := true |}).
  { split; [intros; now left|]. simpl. discriminate. }
  specialize (C f _ [([], []); ([7], [])] A). discriminate C.
Qed.

(** A batch function that returns None: a single call gives None if the method is
    async and a TypeError if it is not. *)
Theorem C13_none_from_batch : forall u a k b, func u a k = Raise NotImplementedError ->
  batch_func u = Some b -> b [a] [k] = Ok None ->
  snd (call nat 0 u true a k) = if is_async u then Ok 0 else Raise TypeError.
Proof. intros u a k b F B N. unfold call. now rewrite F, B, N. Qed.

Module Demo.
  (** sum of the arguments; fails without arguments; the batch implementation only *)
  Definition want (a : args) (k : kwargs) : outcome nat :=
    match a, k with [], [] => Raise (User 1) | _, _ => Ok (fold_right plus 0 a + fold_right plus 0 (map snd k)) end.
  Definition bf (al : list args) (kl : list kwargs) : outcome (option (list nat)) :=
    wrap nat (in_turn nat (map (fun p => want (fst p) (snd p)) (combine al kl))).
  Definition u := {| func := fun _ _ => Raise NotImplementedError; batch_func := Some bf; is_async := true |}.
  Example agree : agrees nat want u.
  Proof.
    split; [right; split; [reflexivity|discriminate]|]. intros b E cs _. injection E as <-. unfold bf.
    rewrite combine_map. apply in_turn_right.
  Qed.
  Definition ds : list delay := [(3, [1; 2], []); (3, [5], [(9, 10)])].
  Example answer : remote_batch nat 0 (fun _ => u) 3 ds (Ok (Some [3; 15])).
  Proof.
    eapply rb_ok; [reflexivity|]. constructor.
    refine (b_batch nat 0 u true _ _ bf _ _ _); simpl; try discriminate; reflexivity.
  Qed.
End Demo.

Print Assumptions C13_batch_gives_single_results.
Print Assumptions C13_batch_is_answered.
Print Assumptions C13_single_call.
Print Assumptions C13_mixed_methods_refused.
Print Assumptions C13_empty_batch.
Print Assumptions C13_held_wrapper_partial.
Print Assumptions C13_held_wrapper_refuted.
