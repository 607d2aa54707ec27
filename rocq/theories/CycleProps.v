(** * C33: cycle detection of the debug mode

    How to read.  A history lists, newest first, the starts and ends of invocations
    (runs of actor methods), numbered in the order of start: [Outside a] by a client,
    [Start p k a w] by invocation [p] in the way [k], with [w]: a cycle is reported.

    [holders h i]: the invocations that hold their actor's lock while waiting, directly or
    through others, for the end of invocation [i].  A call by [i] to an actor held by one
    of them, or by [i] itself if it keeps its lock during the call, can never return: it is
    a cycle ([cycle h i k a]).

    The claim "a cycle is reported when, and only when, there is one" is false in both
    directions: calls through local references are not traced, a generator's yield hides
    all the callers further up, and a local tell, or a background task, carries the trace
    of an invocation that does not wait.  It holds for calls to other pools without
    yields.  [CycleRefProps] adds when references are local: only if they were made before the
    detection was switched on. *)
From Coq Require Import List Bool Arith Lia.
From Verif Require Import CycleModel.
Import ListNotations.

(** ** Specification *)
Fixpoint count (h : list event) : nat :=
  match h with
  | [] => 0
  | Finish _ :: h => count h
  | _ :: h => S (count h)
  end.
Fixpoint actor_of (h : list event) (i : nat) : option nat :=
  match h with
  | [] => None
  | Outside a :: h => if count h =? i then Some a else actor_of h i
  | Start _ _ a _ :: h => if count h =? i then Some a else actor_of h i
  | Finish _ :: h => actor_of h i
  end.
Definition finished (h : list event) (i : nat) : Prop := In (Finish i) h.

(** The caller keeps its lock while it waits. *)
Definition keeps_lock (k : kind) : bool := match k with Send | LocalSend => true | _ => false end.

Fixpoint holders (h : list event) (i : nat) : list nat :=
  match h with
  | [] => []
  | Outside _ :: h => if count h =? i then [] else holders h i
  | Start p k _ _ :: h =>
      if count h =? i then
        match k with
        | Send | LocalSend => p :: holders h p
        | YieldSend | LocalYield => holders h p
        | Tell | LocalTell | TaskSend => []
        end
      else holders h i
  | Finish _ :: h => holders h i
  end.

(** The call of kind [k] by invocation [i] to actor [a] closes a cycle. *)
Definition cycle (h : list event) (i : nat) (k : kind) (a : nat) : Prop :=
  awaited k = true /\
  exists p, (In p (holders h i) \/ p = i /\ keeps_lock k = true) /\
    actor_of h p = Some a /\ ~ finished h p.

Definition C33_claim : Prop := forall s h i k a w s',
  reach s h -> step s (Start i k a w) s' -> (w = true <-> cycle h i k a).

(** Only these kinds of calls occur *)
Definition only (ks : list kind) (h : list event) : Prop :=
  forall p k a w, In (Start p k a w) h -> In k ks.

(** ** Proofs *)
Lemma mem_spec a l : mem a l = true <-> In a l.
Proof.
  unfold mem. rewrite existsb_exists. split.
  - intros (x & I & E). apply Nat.eqb_eq in E. now subst.
  - intros I. exists a. split; auto. apply Nat.eqb_refl.
Qed.

Lemma set_done_nth s : forall i j, nth_error (set_done i s) j =
  match nth_error s j with
  | Some v => Some (if i =? j then mkInv (iactor v) (itrace v) true (iparent v) else v)
  | None => None
  end.
Proof.
  induction s as [|v s IH]; intros [|i] [|j]; cbn [set_done nth_error Nat.eqb]; auto.
  destruct (nth_error s j); auto.
Qed.
Lemma set_done_length s : forall i, length (set_done i s) = length s.
Proof. induction s as [|v s IH]; intros [|i]; cbn; auto. Qed.

Lemma snoc_nth {A} (s : list A) x j v : nth_error (s ++ [x]) j = Some v ->
  (j = length s /\ v = x) \/ (j <> length s /\ nth_error s j = Some v).
Proof.
  intros E. destruct (Nat.lt_ge_cases j (length s)) as [L|L].
  - right. rewrite nth_error_app1 in E by lia. split; [lia|auto].
  - rewrite nth_error_app2 in E by lia. destruct (j - length s) as [|d] eqn:D; cbn in E.
    + inversion E; subst. left. split; [lia|auto].
    + now destruct d.
Qed.

Record Inv (s : st) (h : list event) : Prop := {
  i_len : length s = count h;
  i_actor : forall i v, nth_error s i = Some v -> actor_of h i = Some (iactor v);
  i_done : forall i v, nth_error s i = Some v -> (done v = true <-> finished h i);
  i_future : forall i, length s <= i -> ~ finished h i /\ holders h i = [] /\ actor_of h i = None;
  i_parent : forall i v p k, nth_error s i = Some v -> iparent v = Some (p, k) -> p < i;
  i_alive : forall i v p k, nth_error s i = Some v -> iparent v = Some (p, k) -> awaited k = true -> done v = false ->
    exists v', nth_error s p = Some v' /\ done v' = false;
  i_holders : forall i v, nth_error s i = Some v -> holders h i =
    match iparent v with
    | Some (p, Send) | Some (p, LocalSend) => p :: holders h p
    | Some (p, YieldSend) | Some (p, LocalYield) => holders h p
    | _ => []
    end
}.

Lemma some_lt {A} (s : list A) i v : nth_error s i = Some v -> i < length s.
Proof. intros E. apply nth_error_Some. congruence. Qed.

Lemma inv_reach s h : reach s h -> Inv s h.
Proof.
  induction 1 as [|s h e s' R IH ST].
  - constructor; auto; try (intros [|i]; discriminate).
  - destruct IH as [IL IA ID IF IP IV IH].
    destruct ST as [s a|s p k a v tr w N0 D0 C0|s i v N0 D0 W0].
    + constructor; cbn [count actor_of holders].
      * rewrite app_length, IL. cbn. lia.
      * intros i v N. rewrite <- IL. apply snoc_nth in N. destruct N as [[-> ->]|[NE N]].
        -- now rewrite Nat.eqb_refl.
        -- apply Nat.eqb_neq in NE. rewrite Nat.eqb_sym, NE. eauto.
      * intros i v N. apply snoc_nth in N. unfold finished. cbn [In]. destruct N as [[-> ->]|[NE N]].
        -- cbn. split; [discriminate|]. intros [X|X]; [discriminate|]. destruct (IF (length s)) as [F _]; [lia|]. contradiction.
        -- rewrite (ID _ _ N). unfold finished. split; auto. intros [X|X]; [discriminate|auto].
      * intros i L. rewrite app_length in L. cbn in L. rewrite <- IL. destruct (Nat.eqb_spec (length s) i); [lia|].
        destruct (IF i) as (F & H & A); [lia|]. repeat split; auto. intros [X|X]; [discriminate|contradiction].
      * intros i v p k N P. apply snoc_nth in N. destruct N as [[-> ->]|[NE N]]; [discriminate|]. eauto.
      * intros i v p k N P AW DN. apply snoc_nth in N. destruct N as [[-> ->]|[NE N]]; [discriminate|].
        destruct (IV _ _ _ _ N P AW DN) as (v' & N' & D'). exists v'. split; auto. rewrite nth_error_app1; auto. eapply some_lt; eauto.
      * intros i v N. rewrite <- IL. apply snoc_nth in N. destruct N as [[-> ->]|[NE N]].
        -- now rewrite Nat.eqb_refl.
        -- apply Nat.eqb_neq in NE. rewrite (Nat.eqb_sym (length s) i), NE. rewrite (IH _ _ N).
           destruct (iparent v) as [[p k]|] eqn:P; auto.
           assert (p <> length s) by (assert (X := IP _ _ _ _ N P); apply some_lt in N; lia).
           apply Nat.eqb_neq in H. rewrite (Nat.eqb_sym (length s) p), H. reflexivity.
    + assert (LP := some_lt _ _ _ N0).
      constructor; cbn [count actor_of holders].
      * rewrite app_length, IL. cbn. lia.
      * intros i v' N. rewrite <- IL. apply snoc_nth in N. destruct N as [[-> ->]|[NE N]].
        -- now rewrite Nat.eqb_refl.
        -- apply Nat.eqb_neq in NE. rewrite Nat.eqb_sym, NE. eauto.
      * intros i v' N. apply snoc_nth in N. unfold finished. cbn [In]. destruct N as [[-> ->]|[NE N]].
        -- cbn. split; [discriminate|]. intros [X|X]; [discriminate|]. destruct (IF (length s)) as [F _]; [lia|]. contradiction.
        -- rewrite (ID _ _ N). unfold finished. split; auto. intros [X|X]; [discriminate|auto].
      * intros i L. rewrite app_length in L. cbn in L. rewrite <- IL. destruct (Nat.eqb_spec (length s) i); [lia|].
        destruct (IF i) as (F & H & A); [lia|]. repeat split; auto. intros [X|X]; [discriminate|contradiction].
      * intros i v' p' k' N P. apply snoc_nth in N. destruct N as [[-> ->]|[NE N]]; [|eauto]. cbn in P. inversion P; subst. auto.
      * intros i v' p' k' N P AW DN. apply snoc_nth in N. destruct N as [[-> ->]|[NE N]].
        -- cbn in P. inversion P; subst. exists v. rewrite nth_error_app1 by auto. split; auto. destruct D0 as [D0| ->]; auto. discriminate.
        -- destruct (IV _ _ _ _ N P AW DN) as (v2 & N' & D'). exists v2. split; auto. rewrite nth_error_app1; auto. eapply some_lt; eauto.
      * intros i v' N. rewrite <- IL. apply snoc_nth in N. destruct N as [[-> ->]|[NE N]].
        -- rewrite Nat.eqb_refl. cbn [iparent]. destruct (Nat.eqb_spec (length s) p); [lia|]. reflexivity.
        -- apply Nat.eqb_neq in NE. rewrite (Nat.eqb_sym (length s) i), NE. rewrite (IH _ _ N).
           destruct (iparent v') as [[p' k']|] eqn:P; auto.
           assert (p' <> length s) by (assert (X := IP _ _ _ _ N P); apply some_lt in N; lia).
           apply Nat.eqb_neq in H. rewrite (Nat.eqb_sym (length s) p'), H. reflexivity.
    + constructor; cbn [count actor_of holders].
      * now rewrite set_done_length.
      * intros j v' N. rewrite set_done_nth in N. destruct (nth_error s j) as [v0|] eqn:N1; [|discriminate]. inversion N; subst.
        rewrite (IA _ _ N1). now destruct (i =? j).
      * intros j v' N. rewrite set_done_nth in N. destruct (nth_error s j) as [v0|] eqn:N1; [|discriminate]. inversion N; subst.
        unfold finished. cbn [In]. destruct (Nat.eqb_spec i j) as [->|NE]; cbn [done].
        -- split; auto.
        -- rewrite (ID _ _ N1). unfold finished. split; auto. intros [X|X]; [inversion X; congruence|auto].
      * intros j L. rewrite set_done_length in L. destruct (IF j L) as (F & H & A). repeat split; auto.
        intros [X|X]; [|contradiction]. inversion X; subst. apply some_lt in N0. lia.
      * intros j v' p k N P. rewrite set_done_nth in N. destruct (nth_error s j) as [v0|] eqn:N1; [|discriminate]. inversion N; subst.
        apply (IP _ v0 _ k N1). destruct (i =? j); exact P.
      * intros j v' p k N P AW DN. rewrite set_done_nth in N. destruct (nth_error s j) as [v0|] eqn:N1; [|discriminate]. inversion N; subst.
        destruct (Nat.eqb_spec i j) as [->|NE]; [discriminate|]. destruct (IV _ _ _ _ N1 P AW DN) as (v2 & N2 & D2).
        exists v2. rewrite set_done_nth, N2. split; auto. destruct (Nat.eqb_spec i p) as [->|NP]; auto.
        exfalso. specialize (W0 v0 (nth_error_In _ _ N1) DN k P). congruence.
      * intros j v' N. rewrite set_done_nth in N. destruct (nth_error s j) as [v0|] eqn:N1; [|discriminate]. inversion N; subst.
        rewrite (IH _ _ N1). now destruct (i =? j).
Qed.

(** Holders have not ended. *)
Lemma holders_alive s h : reach s h -> forall i v, nth_error s i = Some v -> done v = false ->
  forall p, In p (holders h i) -> exists v', nth_error s p = Some v' /\ done v' = false.
Proof.
  intros R. assert (I := inv_reach _ _ R). intros i. induction i as [i IHi] using (well_founded_induction lt_wf).
  intros v N D p HP. rewrite (i_holders _ _ I _ _ N) in HP. destruct (iparent v) as [[q k]|] eqn:P; [|destruct HP].
  assert (L := i_parent _ _ I _ _ _ _ N P).
  assert (AL : awaited k = true -> exists v', nth_error s q = Some v' /\ done v' = false) by (intros; eapply (i_alive _ _ I); eauto).
  destruct k; try (destruct HP); try (destruct (AL eq_refl) as (v' & N' & D')); subst; eauto.
Qed.

(** What the traces contain. *)
Definition covered (h : list event) (i a : nat) : Prop :=
  actor_of h i = Some a \/ exists p, In p (holders h i) /\ actor_of h p = Some a.

Lemma covered_old s h e s' i v a : reach s h -> step s e s' -> nth_error s i = Some v ->
  (covered (e :: h) i a <-> covered h i a).
Proof.
  intros R ST N. assert (I := inv_reach _ _ R).
  assert (X : forall j v', nth_error s j = Some v' -> actor_of (e :: h) j = actor_of h j /\ holders (e :: h) j = holders h j).
  { intros j v' N'. apply some_lt in N'. rewrite (i_len _ _ I) in N'. destruct ST; cbn [actor_of holders]; auto;
      destruct (Nat.eqb_spec (count h) j); try lia; auto. }
  unfold covered. destruct (X _ _ N) as [-> ->]. split; (intros [C|(p & P & A)]; [now left|]); right; exists p; split; auto.
  - destruct (nth_error s p) as [v'|] eqn:NP; [now destruct (X _ _ NP) as [<- _]|].
    apply nth_error_None in NP. destruct (i_future _ _ I p NP) as (_ & _ & AN).
    assert (SUB : forall j, In p (holders h j) -> p < length s).
    { intros j. induction j as [j IHj] using (well_founded_induction lt_wf). intros HP.
      destruct (nth_error s j) as [vj|] eqn:NJ.
      - rewrite (i_holders _ _ I _ _ NJ) in HP. destruct (iparent vj) as [[q k]|] eqn:PJ; [|destruct HP].
        assert (LQ := i_parent _ _ I _ _ _ _ NJ PJ). apply some_lt in NJ.
        destruct k; try (destruct HP); subst; try lia; eapply IHj; eauto.
      - apply nth_error_None in NJ. destruct (i_future _ _ I j NJ) as (_ & HN & _). rewrite HN in HP. destruct HP. }
    specialize (SUB _ P). lia.
  - destruct (nth_error s p) as [v'|] eqn:NP; [now destruct (X _ _ NP) as [-> _]|].
    apply nth_error_None in NP. destruct (i_future _ _ I p NP) as (_ & _ & AN). congruence.
Qed.

Lemma only_tl ks e h : only ks (e :: h) -> only ks h.
Proof. intros O p k a w I. eapply O. right. eauto. Qed.

Definition traced_kinds := [Send; LocalSend; YieldSend; LocalYield; Tell].

(** A trace only contains actors of holders, and the invocation's own actor. *)
Lemma trace_sound s h : reach s h -> only traced_kinds h ->
  forall i v a, nth_error s i = Some v -> In a (itrace v) -> covered h i a.
Proof.
  induction 1 as [|s h e s' R IH ST]; intros O i v a N A; [destruct i; discriminate|].
  assert (IH' := IH (only_tl _ _ _ O)). clear IH. assert (I := inv_reach _ _ R).
  assert (I' := inv_reach _ _ (reach_step _ _ _ _ R ST)).
  assert (OLD : forall v0, nth_error s i = Some v0 -> In a (itrace v0) -> covered (e :: h) i a).
  { intros v0 N0 A0. apply (covered_old _ _ _ _ _ _ _ R ST N0). eauto. }
  assert (OWN : actor_of (e :: h) i = Some (iactor v)) by (apply (i_actor _ _ I'); auto).
  destruct ST as [s b|s p k b v0 tr w N0 D0 C0|s j v0 N0 D0 W0].
  - apply snoc_nth in N. destruct N as [[-> ->]|[NE N]]; [|eauto]. cbn in A. destruct A as [<-|[]]. left. exact OWN.
  - apply snoc_nth in N. destruct N as [[-> ->]|[NE N]]; [|eauto]. cbn [itrace] in A.
    assert (HK : In k traced_kinds) by (eapply O; left; reflexivity).
    assert (LP := some_lt _ _ _ N0).
    assert (PA : forall x, covered h p x -> k = Send \/ k = LocalSend -> covered (Start p k b w :: h) (length s) x).
    { intros x CX KK. right. cbn [holders actor_of]. rewrite <- (i_len _ _ I), Nat.eqb_refl.
      assert (PF : forall q, actor_of h q = Some x -> (if length s =? q then Some b else actor_of h q) = Some x).
      { intros q Q. destruct (Nat.eqb_spec (length s) q) as [<-|]; auto. destruct (i_future _ _ I (length s)) as (_ & _ & AN); auto. congruence. }
      destruct CX as [CX|(q & HQ & CX)].
      - exists p. split; [|now apply PF]. destruct KK as [-> | ->]; cbn; auto.
      - exists q. split; [|now apply PF]. destruct KK as [-> | ->]; cbn; auto. }
    unfold call in C0. cbn [sender_trace detect] in C0. unfold record_trace in C0.
    destruct k; cbn [detect] in C0; inversion C0; subst; clear C0; cbn [app] in A.
    + apply in_app_or in A. destruct A as [A|[<-|[]]]; [apply PA; eauto|left; exact OWN].
    + apply PA; eauto.
    + destruct A as [<-|[]]. left. exact OWN.
    + destruct A.
    + destruct A as [<-|[]]. left. exact OWN.
    + exfalso. cbn in HK. intuition discriminate.
    + exfalso. cbn in HK. intuition discriminate.
  - rewrite set_done_nth in N. destruct (nth_error s i) as [v1|] eqn:N1; [|discriminate]. inversion N; subst.
    eapply OLD; eauto. destruct (j =? i); auto.
Qed.

(** With sends to other pools and tells only, it contains all of them. *)
Lemma trace_complete s h : reach s h -> only [Send; Tell] h ->
  forall i v a, nth_error s i = Some v -> covered h i a -> In a (itrace v).
Proof.
  induction 1 as [|s h e s' R IH ST]; intros O i v a N C; [destruct i; discriminate|].
  assert (IH' := IH (only_tl _ _ _ O)). clear IH. assert (I := inv_reach _ _ R).
  assert (I' := inv_reach _ _ (reach_step _ _ _ _ R ST)).
  assert (OLD : forall v0, nth_error s i = Some v0 -> In a (itrace v0)).
  { intros v0 N0. apply (covered_old _ _ _ _ _ _ _ R ST N0) in C. eauto. }
  assert (OWN : actor_of (e :: h) i = Some (iactor v)) by (apply (i_actor _ _ I'); auto).
  destruct ST as [s b|s p k b v0 tr w N0 D0 C0|s j v0 N0 D0 W0].
  - apply snoc_nth in N. destruct N as [[-> ->]|[NE N]]; [|eauto].
    destruct C as [C|(q & HQ & C)]; [left; cbn [iactor] in OWN; congruence|]. cbn [holders] in HQ.
    rewrite <- (i_len _ _ I), Nat.eqb_refl in HQ. destruct HQ.
  - apply snoc_nth in N. destruct N as [[-> ->]|[NE N]]; [|eauto]. cbn [itrace].
    assert (HK : In k [Send; Tell]) by (eapply O; left; reflexivity).
    assert (LP := some_lt _ _ _ N0).
    destruct C as [C|(q & HQ & C)].
    + cbn [iactor] in OWN. assert (b = a) by congruence. subst. unfold call in C0.
      destruct HK as [<-|[<-|[]]]; cbn in C0; inversion C0; subst; unfold record_trace; [apply in_or_app|]; cbn; auto.
    + cbn [holders] in HQ. rewrite <- (i_len _ _ I), Nat.eqb_refl in HQ. destruct HK as [<-|[<-|[]]]; [|destruct HQ].
      cbn in C0. inversion C0; subst. unfold record_trace. apply in_or_app. left. apply (IH' p v0); auto.
      cbn [actor_of] in C. rewrite <- (i_len _ _ I) in C.
      assert (LQ : q < length s).
      { destruct HQ as [<-|HQ]; auto. destruct D0 as [D0|D0]; [|discriminate].
        destruct (holders_alive _ _ R _ _ N0 D0 _ HQ) as (v' & N' & _). eapply some_lt; eauto. }
      destruct (Nat.eqb_spec (length s) q); [lia|]. destruct HQ as [<-|HQ]; [now left|]. right. exists q. auto.
  - rewrite set_done_nth in N. destruct (nth_error s i) as [v1|] eqn:N1; [|discriminate]. inversion N; subst.
    specialize (OLD _ eq_refl). destruct (j =? i); auto.
Qed.

(** ** The property *)

(** No false report, if there are neither local tells nor background tasks. *)
Theorem C33_reports_are_cycles_partial s h i k a w s' :
  reach s h -> only traced_kinds (Start i k a w :: h) ->
  step s (Start i k a w) s' -> w = true -> cycle h i k a.
Proof.
  intros R O ST ->. assert (I := inv_reach _ _ R). inversion ST as [|? ? ? ? v tr ? N0 D0 C0|]; subst.
  assert (HK : In k traced_kinds) by (eapply O; left; reflexivity).
  assert (D : done v = false) by (destruct D0 as [D0| ->]; auto; cbn in HK; intuition discriminate).
  destruct k; cbn in C0; try discriminate.
  - inversion C0 as [[E1 E2]]. clear C0. apply mem_spec in E2. split; auto.
    apply (trace_sound _ _ R (only_tl _ _ _ O) _ _ _ N0) in E2. destruct E2 as [A|(p & HP & A)].
    + exists i. repeat split; auto. intros F. apply (i_done _ _ I _ _ N0) in F. congruence.
    + exists p. repeat split; auto. destruct (holders_alive _ _ R _ _ N0 D _ HP) as (v' & N' & D').
      intros F. apply (i_done _ _ I _ _ N') in F. congruence.
  - exfalso. cbn in HK. intuition discriminate.
Qed.

(** Exactly the cycles, with calls to other pools, without yields. *)
Theorem C33_remote_calls_exact_partial s h i k a w s' :
  reach s h -> only [Send; Tell] (Start i k a w :: h) ->
  step s (Start i k a w) s' -> (w = true <-> cycle h i k a).
Proof.
  intros R O ST. split.
  - eapply C33_reports_are_cycles_partial; eauto. intros p' k' a' w' I0. apply O in I0. cbn in *. intuition.
  - intros (AW & p & HP & A & F). assert (HK : In k [Send; Tell]) by (eapply O; left; reflexivity).
    destruct HK as [<-|[<-|[]]]; [|discriminate].
    inversion ST as [|? ? ? ? v tr ? N0 D0 C0|]; subst. cbn in C0. inversion C0; subst. apply mem_spec.
    apply (trace_complete _ _ R (only_tl _ _ _ O) _ _ _ N0). destruct HP as [HP|[-> _]]; [right; eauto|now left].
Qed.

(** A tell is never reported, nor is a call through a local reference. *)
Theorem C33_tells_not_reported s h i k a w s' :
  reach s h -> step s (Start i k a w) s' -> k = Tell \/ k = LocalTell -> w = false /\ ~ cycle h i k a.
Proof.
  intros R ST K. inversion ST as [|? ? ? ? v tr ? N0 D0 C0|]; subst.
  destruct K as [-> | ->]; cbn in C0; inversion C0; subst; (split; [auto|]); intros (X & _); discriminate.
Qed.

(** ** Demonstration and counterexamples *)
Module Demo.
  (** Actor 1 calls 2, which calls 3, which calls 1: reported. *)
  Example demo_cycle : exists s s', reach s [Start 1 Send 3 false; Start 0 Send 2 false; Outside 1] /\
    step s (Start 2 Send 1 true) s' /\ cycle [Start 1 Send 3 false; Start 0 Send 2 false; Outside 1] 2 Send 1.
  Proof.
    eexists _, _. split; [|split].
    - eapply reach_step; [eapply reach_step; [eapply reach_step; [apply reach_start|]|]|].
      + apply step_outside.
      + eapply step_start; [reflexivity|now left|reflexivity].
      + eapply step_start; [reflexivity|now left|reflexivity].
    - eapply step_start; [reflexivity|now left|reflexivity].
    - split; auto. exists 0. cbn. repeat split; auto. intuition discriminate.
  Qed.
  (** After the end of invocation 0, a call to its actor by another is none. *)
  Example demo_no_cycle : exists s s', reach s [Start 0 Tell 2 false; Outside 1] /\ step s (Start 1 Send 1 false) s'.
  Proof.
    eexists _, _. split.
    - eapply reach_step; [eapply reach_step; [apply reach_start|apply step_outside]|].
      eapply step_start; [reflexivity|now left|reflexivity].
    - eapply step_start; [reflexivity|now left|reflexivity].
  Qed.
End Demo.

(** Two actors of one pool that call each other through local references (which are older than the
    detection: see [CycleRefProps]) block for ever, unreported. *)
Theorem C33_local_cycle_unreported_refuted : ~ C33_claim.
Proof.
  intros C.
  assert (R : exists s s', reach s [Start 0 LocalSend 2 false; Outside 1] /\ step s (Start 1 LocalSend 1 false) s').
  { eexists _, _. split.
    - eapply reach_step; [eapply reach_step; [apply reach_start|apply step_outside]|].
      eapply step_start; [reflexivity|now left|reflexivity].
    - eapply step_start; [reflexivity|now left|reflexivity]. }
  destruct R as (s & s' & R & ST). specialize (C _ _ _ _ _ _ _ R ST).
  assert (X : false = true); [|discriminate]. apply C. split; auto. exists 0. cbn. repeat split; auto. intuition discriminate.
Qed.

(** Remote calls only: 1 awaits 2, which yields a call of 3, which calls 1. *)
Theorem C33_yield_hides_cycle_refuted : ~ (forall s h i k a w s',
  reach s h -> only [Send; YieldSend; Tell] (Start i k a w :: h) ->
  step s (Start i k a w) s' -> cycle h i k a -> w = true).
Proof.
  intros C.
  assert (R : exists s s', reach s [Start 1 YieldSend 3 false; Start 0 Send 2 false; Outside 1] /\ step s (Start 2 Send 1 false) s').
  { eexists _, _. split.
    - eapply reach_step; [eapply reach_step; [eapply reach_step; [apply reach_start|apply step_outside]|]|];
        (eapply step_start; [reflexivity|now left|reflexivity]).
    - eapply step_start; [reflexivity|now left|reflexivity]. }
  destruct R as (s & s' & R & ST). assert (X : false = true); [|discriminate]. eapply C; eauto.
  - intros p k a w. cbn. intros [E|[E|[E|[E|[]]]]]; inversion E; subst; auto.
  - split; auto. exists 0. cbn. repeat split; auto. intuition discriminate.
Qed.

(** A method started by a local tell that calls the teller back is reported, although the
    teller does not wait and may even have ended. *)
Theorem C33_local_tell_reported_refuted : ~ (forall s h i k a w s',
  reach s h -> only [Send; LocalTell] (Start i k a w :: h) ->
  step s (Start i k a w) s' -> w = true -> cycle h i k a).
Proof.
  intros C.
  assert (R : exists s s', reach s [Finish 0; Start 0 LocalTell 2 false; Outside 1] /\ step s (Start 1 Send 1 true) s').
  { eexists _, _. split.
    - eapply reach_step; [eapply reach_step; [eapply reach_step; [apply reach_start|apply step_outside]|]|].
      + eapply step_start; [reflexivity|now left|reflexivity].
      + eapply step_finish; [reflexivity|reflexivity|]. intros c [<-|[<-|[]]] _ k; cbn; intros E; inversion E; reflexivity.
    - eapply step_start; [reflexivity|now left|reflexivity]. }
  destruct R as (s & s' & R & ST).
  assert (X : cycle [Finish 0; Start 0 LocalTell 2 false; Outside 1] 1 Send 1).
  { eapply C; eauto. intros p k a w. cbn. intros [E|[E|[E|[E|[]]]]]; inversion E; subst; auto. }
  destruct X as (_ & p & HP & A & F). cbn in HP. destruct HP as [[]|[-> _]]. discriminate A.
Qed.

Print Assumptions C33_reports_are_cycles_partial.
Print Assumptions C33_remote_calls_exact_partial.
Print Assumptions C33_tells_not_reported.
Print Assumptions C33_local_cycle_unreported_refuted.
Print Assumptions C33_yield_hides_cycle_refuted.
Print Assumptions C33_local_tell_reported_refuted.
