(** * C02, continued: no Placeholder ever ends up where it could not be replaced

    Reading guide.  [deserialize fuel tr bs] is run on any header tree [tr] and any buffers - also damaged ones.
    If it returns a heap [hd], then the tuples in it and the keys of its dictionaries are free of
    Placeholders ([DPh]): the objects that stand for something that was still to come when the container
    was made.  (A dictionary with n entries has n keys, then n values.)  Lists and values of
    dictionaries are completed later, tuples and keys cannot be; the code raises instead. *)
From Coq Require Import List Arith Bool Lia.
From Verif Require Import Base Dict SerModel.
Import ListNotations.

(** ** Specification *)
Definition settled {P C} (o : dobj P C) : Prop :=
  match o with
  | DLeaf _ => True
  | DNode (KTuple _) ws => forall id, ~ In (DPh id) ws
  | DNode (KList _) _ => True
  | DNode (KDict _) ws => forall i id, i < Nat.div2 (length ws) -> nth_error ws i <> Some (DPh id)
  end.

(** ** Proofs *)
Section Clean.
  Variables P C H B : Type.
  Variable leaf_load : H -> list B -> option C.
  Notation deserialize := (deserialize P C H B leaf_load).
  Notation dobj := (dobj P C).
  Notation dval := (dval P).

  (** The slot [i] of such an object may be replaced. *)
  Definition open_slot (o : dobj) (i : nat) : Prop :=
    match o with
    | DLeaf _ => True
    | DNode (KTuple _) _ => False
    | DNode (KList _) _ => True
    | DNode (KDict _) ws => Nat.div2 (length ws) <= i
    end.
  Record Inv (t : dst P C) : Prop := {
    v_objs : forall a o, nth_error (dh _ _ t) a = Some o -> settled o;
    v_cbs : forall id cbs a i, gget Nat.eqb (cx _ _ t) id = Some (CPh cbs) -> In (a, i) cbs ->
      exists o, nth_error (dh _ _ t) a = Some o /\ open_slot o i }.

  Lemma upd_len : forall A (l : list A) i x, length (upd l i x) = length l.
  Proof. induction l as [|y l IH]; intros [|i] x; cbn; auto. Qed.
  Lemma upd_nth : forall A (l : list A) i x j, nth_error (upd l i x) j =
    if Nat.eqb i j then match nth_error l j with Some _ => Some x | None => None end else nth_error l j.
  Proof.
    induction l as [|y l IH]; intros [|i] x [|j]; cbn [upd nth_error Nat.eqb]; auto.
    - destruct (Nat.eqb i j); reflexivity.
  Qed.

  (** One callback keeps every object settled and every slot open. *)
  Lemma cb_ok : forall w h a i,
    (forall b o, nth_error h b = Some o -> settled o) -> (exists o, nth_error h a = Some o /\ open_slot o i) ->
    (forall b o, nth_error (run_cb P C w h (a, i)) b = Some o -> settled o) /\
    (forall b j, (exists o, nth_error h b = Some o /\ open_slot o j) ->
       exists o, nth_error (run_cb P C w h (a, i)) b = Some o /\ open_slot o j).
  Proof.
    intros w h a i S (o & E & O). unfold run_cb. cbn [fst snd]. rewrite E. destruct o as [c|k ws]; [auto|]. split.
    - intros b o. rewrite upd_nth. destruct (Nat.eqb_spec a b); [|apply S]. subst b. rewrite E. intros X. injection X as <-.
      pose proof (S _ _ E) as S1. destruct k as [n|n|n]; cbn [open_slot settled] in *; try contradiction; try exact I.
      intros j id. rewrite upd_len. intros L. rewrite upd_nth. destruct (Nat.eqb_spec i j); [lia|auto].
    - intros b j (o & F & Q). rewrite upd_nth. destruct (Nat.eqb_spec a b); [|eauto]. subst b. rewrite E in *. injection F as <-.
      eexists. split; [reflexivity|]. destruct k; cbn [open_slot] in *; auto. now rewrite upd_len.
  Qed.
  Lemma cbs_ok : forall w cbs h,
    (forall b o, nth_error h b = Some o -> settled o) ->
    (forall a i, In (a, i) cbs -> exists o, nth_error h a = Some o /\ open_slot o i) ->
    (forall b o, nth_error (fold_left (run_cb P C w) cbs h) b = Some o -> settled o) /\
    (forall b j, (exists o, nth_error h b = Some o /\ open_slot o j) ->
       exists o, nth_error (fold_left (run_cb P C w) cbs h) b = Some o /\ open_slot o j).
  Proof.
    intros w cbs. induction cbs as [|[a i] cbs IH]; intros h S O; cbn [fold_left]; [auto|].
    destruct (cb_ok w h a i S (O _ _ (or_introl eq_refl))) as [S1 O1].
    destruct (IH _ S1) as [S2 O2]; [|split; auto].
    intros b j X. apply O1, O. now right.
  Qed.

  Lemma set_ok : forall t id w, Inv t -> Inv (set_context P C t id w).
  Proof.
    intros t id w [S O]. unfold set_context.
    assert (G : forall cbs, (forall a i, In (a, i) cbs -> exists o, nth_error (dh _ _ t) a = Some o /\ open_slot o i) ->
      Inv {| dh := fold_left (run_cb P C w) cbs (dh _ _ t); cx := gset Nat.eqb (cx _ _ t) id (CV w) |}).
    { intros cbs Q. destruct (cbs_ok w cbs (dh _ _ t) S Q) as [S1 O1]. constructor; cbn [dh cx]; [exact S1|].
      intros id' cbs' a i. rewrite (gget_gset _ Nat.eqb_spec). destruct (Nat.eqb id id'); [discriminate|]. intros X Y. apply O1. eauto. }
    destruct (gget Nat.eqb (cx _ _ t) id) as [[w'|cbs]|] eqn:E; [apply (G []); intros ? ? []| |apply (G []); intros ? ? []].
    apply G. intros a i X. eauto.
  Qed.

  Lemma register_spec : forall ws c a i0 id cbs b j, gget Nat.eqb (register P c a i0 ws) id = Some (CPh cbs) -> In (b, j) cbs ->
    (exists cbs', gget Nat.eqb c id = Some (CPh cbs') /\ In (b, j) cbs') \/
    (b = a /\ i0 <= j /\ nth_error ws (j - i0) = Some (DPh id)).
  Proof.
    induction ws as [|w ws IH]; intros c a i0 id cbs b j E X; cbn [register] in E; [eauto|].
    assert (K : forall c', gget Nat.eqb (register P c' a (S i0) ws) id = Some (CPh cbs) ->
      (exists cbs', gget Nat.eqb c' id = Some (CPh cbs') /\ In (b, j) cbs') \/
      (b = a /\ i0 <= j /\ nth_error (w :: ws) (j - i0) = Some (DPh id))).
    { intros c' E'. destruct (IH _ _ _ _ _ _ _ E' X) as [Y|(-> & L & Y)]; [now left|right]. split; [reflexivity|]. split; [lia|].
      replace (j - i0) with (S (j - S i0)) by lia. exact Y. }
    destruct w as [p|r|n]; try (exact (K _ E)).
    destruct (K _ E) as [(cbs' & Y & Z)|Y]; [|now right]. rewrite (gget_gset _ Nat.eqb_spec) in Y.
    destruct (Nat.eqb_spec n id) as [->|D]; [|left; eauto]. injection Y as <-.
    apply in_app_or in Z. destruct Z as [Z|[Z|[]]].
    - left. destruct (gget Nat.eqb c id) as [[w'|l]|]; [contradiction| |contradiction]. eauto.
    - injection Z as -> ->. right. split; [reflexivity|]. split; [lia|]. now rewrite Nat.sub_diag.
  Qed.

  Lemma is_ph_in : forall ws id, In (DPh id) ws -> existsb (is_ph P) ws = true.
  Proof. intros ws id X. apply existsb_exists. exists (DPh id). auto. Qed.
  Lemma firstn_in : forall A (l : list A) n i x, i < n -> nth_error l i = Some x -> In x (firstn n l).
  Proof.
    induction l as [|y l IH]; intros [|n] [|i] x L E; cbn in *; try lia; try discriminate.
    - left. congruence.
    - right. apply (IH n i); [lia|exact E].
  Qed.

  Lemma new_ok : forall t id o, Inv t -> settled o -> Inv (snd (new_obj P C t id o)).
  Proof.
    intros t id o [S O] So. unfold new_obj. cbn [snd]. apply set_ok. constructor; cbn [dh cx].
    - intros a x. destruct (Nat.lt_ge_cases a (length (dh _ _ t))).
      + rewrite nth_error_app1 by assumption. apply S.
      + rewrite nth_error_app2 by assumption. destruct (a - length (dh _ _ t)) as [|k]; [intros X; injection X as <-; exact So|].
        destruct k; discriminate.
    - intros id' cbs a i X Y. destruct (O _ _ _ _ X Y) as (x & E & Q). exists x. split; [|exact Q].
      rewrite nth_error_app1; [exact E|]. apply nth_error_Some. congruence.
  Qed.

  Lemma node_ok : forall t id k ws, Inv t -> settled (DNode (C := C) k ws) ->
    (forall i x, nth_error ws i = Some (DPh x) -> open_slot (DNode (C := C) k ws) i) ->
    Inv (snd (new_obj P C {| dh := dh _ _ t; cx := register P (cx _ _ t) (length (dh _ _ t)) 0 ws |} id (DNode k ws))).
  Proof.
    intros t id k ws [S O] So Op. unfold new_obj. cbn [snd]. apply set_ok. cbn [dh cx]. constructor; cbn [dh cx].
    - intros a x. destruct (Nat.lt_ge_cases a (length (dh _ _ t))).
      + rewrite nth_error_app1 by assumption. apply S.
      + rewrite nth_error_app2 by assumption. destruct (a - length (dh _ _ t)) as [|k0]; [intros X; injection X as <-; exact So|].
        destruct k0; discriminate.
    - intros id' cbs a i X Y. destruct (register_spec _ _ _ _ _ _ _ _ X Y) as [(cbs' & X' & Y')|(-> & _ & Z)].
      + destruct (O _ _ _ _ X' Y') as (x & E & Q). exists x. split; [|exact Q]. rewrite nth_error_app1; [exact E|]. apply nth_error_Some. congruence.
      + exists (DNode k ws). split; [rewrite nth_error_app2 by lia; now rewrite Nat.sub_diag|]. rewrite Nat.sub_0_r in Z. exact (Op _ _ Z).
  Qed.

  Lemma single_ok : forall t hd subs bs w t', deserial_single P C H B leaf_load t hd subs bs = DOk (w, t') -> Inv t -> Inv t'.
  Proof.
    intros t hd subs bs w t' E V. destruct hd as [id p|id h n|id|id|id k inline]; cbn [deserial_single] in E.
    - injection E as <- <-. now apply set_ok.
    - destruct (leaf_load h bs); [|discriminate]. injection E as <- <-. now apply (new_ok t id (DLeaf c)).
    - injection E as <- <-. apply (new_ok t id (DNode (KDict 0) [])); auto. intros i x L. cbn in L. lia.
    - destruct (gget Nat.eqb (cx _ _ t) id) as [[w'|cbs]|] eqn:G.
      + injection E as <- <-. exact V.
      + injection E as <- <-. destruct V as [S O].
        destruct (cbs_ok (DPh id) cbs (dh _ _ t) S) as [S1 O1]; [intros a i X; eauto|].
        constructor; cbn [dh cx]; [exact S1|]. intros id' cbs' a i X Y. apply O1. eauto.
      + injection E as <- <-. destruct V as [S O]. constructor; cbn [dh cx]; [exact S|].
        intros id' cbs' a i. rewrite (gget_gset _ Nat.eqb_spec). destruct (Nat.eqb id id'); [|eauto].
        intros X Y. injection X as <-. contradiction.
    - destruct (fill P inline subs) as [ws|]; [|discriminate]. unfold deserial_node in E. destruct k as [n|n|n].
      + injection E as <- <-. apply (node_ok t id (KList n) ws); auto. exact I. intros; exact I.
      + destruct (existsb (is_ph P) ws) eqn:X; [discriminate|].
        assert (N : forall x, ~ In (DPh x) ws) by (intros x Y; apply is_ph_in in Y; congruence).
        injection E as <- <-. apply (node_ok t id (KTuple n) ws); auto.
        intros i x Y. apply nth_error_In in Y. elim (N _ Y).
      + destruct (existsb (is_ph P) (firstn (Nat.div2 (length ws)) ws)) eqn:X; [discriminate|].
        assert (N : forall i x, i < Nat.div2 (length ws) -> nth_error ws i <> Some (DPh x)).
        { intros i x L Y. apply (firstn_in _ _ _ _ _ L) in Y. apply is_ph_in in Y. congruence. }
        injection E as <- <-. apply (node_ok t id (KDict n) ws); auto.
        intros i x Y. cbn [open_slot]. destruct (Nat.le_gt_cases (Nat.div2 (length ws)) i); [assumption|]. elim (N i x); auto.
  Qed.

  Lemma dstep_ok : forall bs q q', dstep P C H B leaf_load bs q = DOk q' -> Inv (q_t _ _ _ q) -> Inv (q_t _ _ _ q').
  Proof.
    intros bs q q' E V. unfold dstep in E. destruct (q_stack _ _ _ q) as [|it rest]; [now injection E as <-|].
    cbn zeta in E. destruct (nth_error (di_subs _ _ it) _) as [[hd subs]|].
    - destruct (is_leaf P H (T hd subs)).
      + destruct (deserial_single _ _ _ _ _ _ hd _ _) as [[w t]|e] eqn:D; [|discriminate].
        injection E as <-. cbn [q_t]. eapply single_ok; eauto.
      + injection E as <-. exact V.
    - destruct (deserial_single _ _ _ _ _ _ _ _ _) as [[w t]|e] eqn:D; [|discriminate].
      injection E as <-. cbn [q_t]. eapply single_ok; eauto.
  Qed.
  Lemma dloop_ok : forall fuel bs q q', dloop P C H B leaf_load fuel bs q = Some (DOk q') -> Inv (q_t _ _ _ q) -> Inv (q_t _ _ _ q').
  Proof.
    induction fuel as [|f IH]; intros bs q q' E V; cbn [dloop] in E.
    - destruct (q_stack _ _ _ q); [|discriminate]. now injection E as <-.
    - destruct (q_stack _ _ _ q); [now injection E as <-|].
      destruct (dstep _ _ _ _ _ bs q) as [q1|e] eqn:D; [|discriminate]. eapply IH; [exact E|]. eapply dstep_ok; eauto.
  Qed.

  (** ** Theorem *)
  Theorem C02_no_placeholder_stuck_partial : forall fuel tr bs hd w n, deserialize fuel tr bs = Some (DOk (hd, w, n)) ->
    forall a o, nth_error hd a = Some o -> settled o.
  Proof.
    intros fuel [h subs] bs hd w n E.
    assert (V0 : Inv (t0 P C)) by (constructor; cbn; [intros [|?] ?; discriminate|discriminate]).
    unfold SerModel.deserialize in E. destruct (is_leaf P H (T h subs)).
    - destruct (deserial_single _ _ _ _ _ _ h _ _) as [[w' t]|e] eqn:D; [|discriminate]. injection E as <- _ _.
      apply v_objs. eapply single_ok; eauto.
    - destruct (dloop _ _ _ _ _ fuel bs _) as [[q|e]|] eqn:D; [|discriminate|discriminate].
      destruct (q_last _ _ _ q); [|discriminate]. injection E as <- _ _. apply v_objs. eapply dloop_ok; [exact D|]. exact V0.
  Qed.
End Clean.

(** ** Examples *)
Module Demo.
  Definition no_load (h : nat) (b : list nat) : option nat := None.
  (** A list that contains itself is received as such (its slot was replaced). *)
  Definition own_list : tree nat nat := T (HNode 0 (KList 0) [None]) [T (HRef 0) []].
  Example list_in_itself : deserialize nat nat nat nat no_load 9 own_list [] = Some (DOk ([DNode (KList 0) [DR 0]], DR 0, 0)).
  Proof. reflexivity. Qed.
  (** A tuple that contains itself cannot be received. *)
  Definition own_tuple : tree nat nat := T (HNode 0 (KTuple 0) [None]) [T (HRef 0) []].
  Example tuple_in_itself : deserialize nat nat nat nat no_load 9 own_tuple [] = Some (DErr EAssert).
  Proof. reflexivity. Qed.
End Demo.

Print Assumptions C02_no_placeholder_stuck_partial.
