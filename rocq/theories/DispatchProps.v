(** C27: type dispatch picks the nearest registered ancestor.

    Reading guide.  The specification speaks about the history of operations
    (newest first). *)
From Coq Require Import List Arith Bool Lia.
From Verif Require Import Dict DispatchModel.
Import ListNotations.

Section Spec.
  Variable mro : nat -> list nat.
  Variable resolve : nat -> option nat.
  Definition history := list (ev * out).

  (** The handler registered for exactly this key: its last register, if no
      unregister came later.  A path stands for the class it leads to. *)
  Definition is_path (p : nat) (k : key) : bool :=
    match resolve p with Some c => keyb (Plain c) k | None => false end.
  Fixpoint registered (h : history) (k : key) : option nat :=
    match h with
    | [] => None
    | (ERegister k' v, _) :: h' => if keyb k' k then Some v else registered h' k
    | (ERegisterPath p v, _) :: h' => if is_path p k then Some v else registered h' k
    | (EUnregister k', _) :: h' => if keyb k' k then None else registered h' k
    | (EUnregisterPath p, _) :: h' => if is_path p k then None else registered h' k
    | _ :: h' => registered h' k
    end.

  (** The ancestors, the nearest first; for a named type each class first under
      the name. *)
  Fixpoint ancestors (k : key) (classes : list nat) : list key :=
    match classes with
    | [] => []
    | c :: l => match k with
                | Plain _ => Plain c :: ancestors k l
                | Named n _ => Named n c :: Plain c :: ancestors k l
                end
    end.
  Definition class_of (k : key) : nat := match k with Plain c | Named _ c => c end.
  Fixpoint nearest (h : history) (l : list key) : option nat :=
    match l with
    | [] => None
    | k :: l' => match registered h k with Some v => Some v | None => nearest h l' end
    end.
  Definition right_answer (h : history) (k : key) : out :=
    match nearest h (ancestors k (mro (class_of k))) with Some v => RFound v | None => RKeyError end.

  (** C27, in full (as far as all paths can be imported). *)
  Definition C27_claim : Prop :=
    (forall c, hd_error (mro c) = Some c) -> (forall p, resolve p <> None) ->
    forall s h k, reach mro resolve s h -> snd (step mro resolve s (ELookup k)) = right_answer h k.

  (** [k] has been looked up since the last unregister *)
  Fixpoint looked (h : history) (k : key) : Prop :=
    match h with
    | [] => False
    | (EUnregister _, _) :: _ | (EUnregisterPath _, _) :: _ => False
    | (ELookup k', _) :: h' => k' = k \/ looked h' k
    | _ :: h' => looked h' k
    end.
  (** No ancestor was registered between a lookup of [k] and now, unless an
      unregister came in between. *)
  Fixpoint fresh (h : history) (k : key) : Prop :=
    match h with
    | [] => True
    | (EUnregister _, _) :: _ | (EUnregisterPath _, _) :: _ => True
    | (ERegister k' _, _) :: h' =>
        (In k' (ancestors k (mro (class_of k))) -> k' <> k -> ~ looked h' k) /\ fresh h' k
    | (ERegisterPath p _, _) :: h' =>
        (forall c, resolve p = Some c -> In (Plain c) (ancestors k (mro (class_of k))) -> ~ looked h' k) /\ fresh h' k
    | _ :: h' => fresh h' k
    end.
  (** An operation with a path that leads to class [c] / with class [c]. *)
  Definition by_path (e : ev) (c : nat) : Prop :=
    match e with ERegisterPath p _ | EUnregisterPath p => resolve p = Some c | _ => False end.
  Definition by_class (e : ev) (c : nat) : Prop :=
    match e with ERegister k _ | EUnregister k => k = Plain c | _ => False end.
  (** A class that is registered by path is not touched by any other operation. *)
  Fixpoint tame (h : history) : Prop :=
    match h with
    | [] => True
    | (e, _) :: h' => tame h' /\
        forall c, (by_path e c -> forall e' r', In (e', r') h' -> ~ by_path e' c /\ ~ by_class e' c) /\
                  (by_class e c -> forall e' r', In (e', r') h' -> ~ by_path e' c)
    end.
End Spec.

Lemma keyb_spec : forall a b, reflect (a = b) (keyb a b).
Proof.
  intros [c|n c] [c'|n' c']; simpl; try (constructor; congruence).
  - destruct (Nat.eqb_spec c c'); constructor; congruence.
  - destruct (Nat.eqb_spec n n'), (Nat.eqb_spec c c'); simpl; constructor; congruence.
Qed.

Section Proofs.
  Variable mro : nat -> list nat.
  Variable resolve : nat -> option nat.
  Hypothesis mro_hd : forall c, hd_error (mro c) = Some c.
  Hypothesis paths : forall p, resolve p <> None.
  Notation registered := (registered resolve).
  Notation nearest := (nearest resolve).
  Notation fresh := (fresh mro resolve).
  Notation tame := (tame resolve).
  Notation anc k := (ancestors k (mro (class_of k))).
  Notation reload := (reload resolve).
  Notation load := (load resolve).
  Notation get_handler := (get_handler mro resolve).

  Lemma search_anc : forall k, search mro k = anc k.
  Proof.
    intros [c|n c]; simpl; generalize (mro c); induction l as [|x l IH]; simpl; congruence.
  Qed.
  Lemma anc_hd : forall k, exists l, anc k = k :: l.
  Proof.
    intros [c|n c]; simpl; pose proof (mro_hd c) as M; destruct (mro c) as [|x l]; try discriminate;
      injection M as ->; simpl; eauto.
  Qed.

  (** [lazy]: what is waiting to be loaded is what is registered for its class. *)
  Record inv (s : st) (h : history) : Prop := {
    i_reg : forall k, gget keyb (handlers s) k = registered h k \/
      (gget keyb (handlers s) k = None /\ exists p v c, In (p, v) (lazy s) /\ resolve p = Some c /\ k = Plain c /\
        registered h k = Some v);
    i_lazy : forall p v, In (p, v) (lazy s) -> exists c, resolve p = Some c /\
       registered h (Plain c) = Some v /\ gget keyb (handlers s) (Plain c) = None /\
       exists r, In (ERegisterPath p v, r) h;
    i_one : forall p p' c, In p (gkeys (lazy s)) -> In p' (gkeys (lazy s)) -> resolve p = Some c -> resolve p' = Some c -> p = p';
    i_nd : NoDup (gkeys (lazy s));
    i_look : forall k v, gget keyb (inherit s) k = Some v -> looked h k;
    i_inh : forall k v, gget keyb (inherit s) k = Some v -> gget keyb (handlers s) k = None -> fresh h k ->
      nearest h (anc k) = Some v
  }.

  Lemma load_ok : forall l hs, exists hs', load hs l = (hs', true).
  Proof.
    induction l as [|[p v] l IH]; simpl; intros hs; eauto.
    destruct (resolve p) eqn:E; [apply IH|]. exfalso. now apply (paths p).
  Qed.
  (** After loading, a class has the handler of its last path, or its old one. *)
  Lemma load_get : forall l hs hs', load hs l = (hs', true) ->
    NoDup (gkeys l) ->
    (forall p p' c, In p (gkeys l) -> In p' (gkeys l) -> resolve p = Some c -> resolve p' = Some c -> p = p') ->
    forall k, (gget keyb hs' k = gget keyb hs k /\
               (forall p v c, In (p, v) l -> resolve p = Some c -> k <> Plain c)) \/
      (exists p v c, In (p, v) l /\ resolve p = Some c /\ k = Plain c /\ gget keyb hs' k = Some v).
  Proof.
    induction l as [|[p v] l IH]; simpl; intros hs hs' L N O k.
    - injection L as <-. left. split; auto.
    - apply NoDup_cons_iff in N. destruct N as [N1 N2].
      destruct (resolve p) as [c|] eqn:R; [|discriminate].
      assert (O' : forall p p' c, In p (gkeys l) -> In p' (gkeys l) -> resolve p = Some c -> resolve p' = Some c -> p = p').
      { intros. eapply O; eauto. }
      destruct (IH _ _ L N2 O' k) as [[G NK]|[p' [v' [c' [H1 [H2 [H3 H4]]]]]]].
      + rewrite (gget_gset _ keyb_spec) in G. destruct (keyb_spec (Plain c) k) as [<-|NE].
        * right. exists p, v, c. repeat split; auto.
        * left. split; auto. intros p' v' c' [Q|Q] R' ->.
          -- injection Q as <- <-. congruence.
          -- eapply NK; eauto.
      + right. exists p', v', c'. repeat split; auto.
  Qed.

  (** Reloading: the history counts as before, nothing is waiting any more. *)
  Lemma reload_ok : forall s h, inv s h -> exists s', reload s = (s', true) /\ lazy s' = [] /\
    inherit s' = inherit s /\ (forall k, gget keyb (handlers s') k = registered h k) /\
    (forall k, gget keyb (handlers s') k = None -> gget keyb (handlers s) k = None).
  Proof.
    intros s h I. unfold DispatchModel.reload. destruct (load_ok (lazy s) (handlers s)) as [hs' L]. rewrite L.
    eexists. split; [reflexivity|]. simpl. split; auto. split; auto.
    assert (G := load_get _ _ _ L (i_nd _ _ I) (i_one _ _ I)).
    split.
    - intros k. destruct (G k) as [[G1 G2]|[p [v [c [H1 [H2 [H3 H4]]]]]]].
      + rewrite G1. destruct (i_reg _ _ I k) as [E|[_ [p [v [c [H1 [H2 [H3 _]]]]]]]]; auto.
        exfalso. eapply G2; eauto.
      + rewrite H4. destruct (i_lazy _ _ I _ _ H1) as [c' [R [Q _]]].
        rewrite R in H2. injection H2 as ->. subst k. congruence.
    - intros k E. destruct (G k) as [[G1 G2]|[p [v [c [H1 [H2 [H3 H4]]]]]]]; congruence.
  Qed.

  Lemma first_nearest : forall hs h l, (forall k, gget keyb hs k = registered h k) ->
    first_handler hs l = nearest h l.
  Proof. induction l as [|k l IH]; simpl; intros E; auto. rewrite E, IH; auto. Qed.

  Lemma nearest_ext : forall h h' l, (forall k, In k l -> registered h k = registered h' k) ->
    nearest h l = nearest h' l.
  Proof. induction l as [|k l IH]; simpl; intros E; auto. rewrite E, IH; auto. Qed.

  Definition quiet (e : ev) : Prop := match e with ELookup _ | EReload => True | _ => False end.
  Lemma quiet_registered : forall e r h k, quiet e -> registered ((e, r) :: h) k = registered h k.
  Proof. intros e r h k Q; destruct e; try contradiction; reflexivity. Qed.
  Lemma quiet_fresh : forall e r h k, quiet e -> fresh ((e, r) :: h) k = fresh h k.
  Proof. intros e r h k Q; destruct e; try contradiction; reflexivity. Qed.
  Lemma quiet_looked : forall e r h k, quiet e -> looked h k -> looked ((e, r) :: h) k.
  Proof. intros e r h k Q; destruct e; try contradiction; simpl; auto. Qed.

  (** The state after a reload, for any quiet event. *)
  Lemma inv_quiet : forall s h e r s', inv s h -> quiet e ->
    lazy s' = [] -> (forall k, gget keyb (handlers s') k = registered h k) ->
    (forall k, gget keyb (handlers s') k = None -> gget keyb (handlers s) k = None) ->
    (forall k v, gget keyb (inherit s') k = Some v ->
       gget keyb (inherit s) k = Some v \/ (e = ELookup k /\ nearest h (anc k) = Some v)) ->
    inv s' ((e, r) :: h).
  Proof.
    intros s h e r s' I Q L R D IN. constructor.
    - intros k. left. now rewrite R, quiet_registered.
    - rewrite L. intros ? ? [].
    - rewrite L. intros ? ? ? [].
    - rewrite L. constructor.
    - intros k v E. destruct (IN _ _ E) as [E'|[-> _]]; [|simpl; auto].
      apply quiet_looked; auto. eapply i_look; eauto.
    - intros k v E HN F. rewrite (nearest_ext _ h) by (intros; now apply quiet_registered).
      rewrite quiet_fresh in F by auto. destruct (IN _ _ E) as [E'|[_ E']]; auto.
      eapply i_inh; eauto.
  Qed.
  (** A lookup that changes nothing. *)
  Lemma inv_same : forall s h e r, inv s h -> quiet e -> inv s ((e, r) :: h).
  Proof.
    intros s h e r I Q. destruct I. constructor; auto.
    - intros k. rewrite quiet_registered by auto. auto.
    - intros p v H. destruct (i_lazy0 p v H) as [c [H1 [H2 [H3 [r' H4]]]]].
      exists c. rewrite quiet_registered by auto. repeat split; auto. exists r'. now right.
    - intros k v E. apply quiet_looked; eauto.
    - intros k v E HN F. rewrite (nearest_ext _ h) by (intros; now apply quiet_registered).
      rewrite quiet_fresh in F by auto. eauto.
  Qed.

  Lemma lookup_ok : forall s h k, inv s h ->
    inv (fst (get_handler s k)) ((ELookup k, snd (get_handler s k)) :: h) /\
    (fresh h k -> snd (get_handler s k) = right_answer mro resolve h k).
  Proof.
    intros s h k I. unfold DispatchModel.get_handler, right_answer.
    destruct (gget keyb (handlers s) k) as [v|] eqn:E.
    - simpl. split; [now apply inv_same|]. intros _. destruct (anc_hd k) as [l ->]. simpl.
      destruct (i_reg _ _ I k) as [Q|[Q _]]; [|congruence]. rewrite <- Q, E. reflexivity.
    - destruct (gget keyb (inherit s) k) as [v|] eqn:EI.
      + simpl. split; [now apply inv_same|]. intros F. rewrite (i_inh _ _ I _ _ EI E F). reflexivity.
      + destruct (reload_ok s h I) as [s' [R [L [IH [G D]]]]]. rewrite R.
        rewrite search_anc, (first_nearest _ h) by auto.
        destruct (nearest h (anc k)) as [v|] eqn:NE; simpl.
        * split; auto. apply (inv_quiet s); simpl; auto. intros k' v' Q.
          rewrite (gget_gset _ keyb_spec) in Q. destruct (keyb_spec k k') as [<-|N].
          -- right. split; auto. now rewrite <- Q.
          -- left. now rewrite IH in Q.
        * split; auto. apply (inv_quiet s); simpl; auto. intros k' v' Q. left. now rewrite IH in Q.
  Qed.

  Lemma tame_tl : forall x h, tame (x :: h) -> tame h.
  Proof. intros [e r] h T. apply T. Qed.

  Lemma inv_init : inv init [].
  Proof. constructor; simpl; auto; try tauto; try discriminate; constructor. Qed.

  Lemma gset_In : forall (l : list (nat * nat)) k v x w, In (x, w) (gset Nat.eqb l k v) ->
    (x = k /\ w = v) \/ In (x, w) l.
  Proof.
    induction l as [|[k' v'] l IH]; simpl; intros k v x w H.
    - destruct H as [H|[]]. injection H as <- <-. auto.
    - destruct (Nat.eqb_spec k' k); simpl in H.
      + destruct H as [H|H]; auto. injection H as <- <-. subst. auto.
      + destruct H as [H|H]; auto. destruct (IH _ _ _ _ H); auto.
  Qed.
  Lemma In_gset2 : forall (l : list (nat * nat)) k v x w, In (x, w) l -> x <> k -> In (x, w) (gset Nat.eqb l k v).
  Proof.
    induction l as [|[k' v'] l IH]; simpl; intros k v x w H N; [tauto|].
    destruct (Nat.eqb_spec k' k); simpl; destruct H as [H|H]; auto. injection H as <- <-. congruence.
  Qed.
  Lemma In_gset1 : forall (l : list (nat * nat)) k v, In (k, v) (gset Nat.eqb l k v).
  Proof.
    induction l as [|[k' v'] l IH]; simpl; intros; auto. destruct (Nat.eqb_spec k' k); simpl; subst; auto.
  Qed.

  Lemma is_path_key : forall p c k, resolve p = Some c -> is_path resolve p k = keyb (Plain c) k.
  Proof. intros p c k R. unfold is_path. now rewrite R. Qed.

  Lemma inv_step : forall s h e s' r, inv s h -> step mro resolve s e = (s', r) -> tame ((e, r) :: h) ->
    inv s' ((e, r) :: h).
  Proof.
    intros s h e s' r I S T. destruct e as [k v|p v|k|p|k|]; simpl in S.
    - injection S as <- <-. destruct T as [T TT]. 
      (* a class that has a waiting path is not registered itself *)
      assert (NW : forall p' v' c, In (p', v') (lazy s) -> resolve p' = Some c -> k <> Plain c).
      { intros p' v' c H R ->. destruct (i_lazy _ _ I _ _ H) as [c' [_ [_ [_ [r' H4]]]]].
        destruct (TT c) as [_ T2]. apply (T2 eq_refl _ _ H4). exact R. }
      constructor; simpl.
      + intros k'. rewrite (gget_gset _ keyb_spec). destruct (keyb_spec k k') as [<-|N]; auto.
        apply (i_reg _ _ I).
      + intros p' v' H. destruct (i_lazy _ _ I _ _ H) as [c [H1 [H2 [H3 [r' H4]]]]]. exists c.
        rewrite (gget_gset _ keyb_spec). destruct (keyb_spec k (Plain c)); [exfalso; eapply NW; eauto|].
        repeat split; eauto.
      + apply (i_one _ _ I).
      + apply (i_nd _ _ I).
      + intros k' v' E. simpl. eapply i_look; eauto.
      + intros k' v' E HN [F1 F2]. rewrite (gget_gset _ keyb_spec) in HN.
        destruct (keyb_spec k k') as [<-|N]; [discriminate|].
        rewrite (nearest_ext _ h).
        * eapply i_inh; eauto.
        * intros x Hx. simpl. destruct (keyb_spec k x) as [<-|]; auto.
          exfalso. apply F1; auto. eapply i_look; eauto.
    - injection S as <- <-. destruct T as [T TT].
      destruct (resolve p) as [c|] eqn:R; [|exfalso; now apply (paths p)].
      destruct (TT c) as [T1 _]. specialize (T1 R).
      (* nothing else happened to class c *)
      assert (NR : registered h (Plain c) = None).
      { clear -T1 paths. induction h as [|[e r] h IH]; auto.
        assert (IH' := IH (fun e' r' H => T1 e' r' (or_intror H))).
        destruct (T1 e r (or_introl eq_refl)) as [A B].
        destruct e as [k v'|p' v'|k|p'|k|]; simpl in *; auto.
        - destruct (keyb_spec k (Plain c)); auto. congruence.
        - unfold is_path. destruct (resolve p') as [c'|] eqn:R'; auto.
          destruct (keyb_spec (Plain c') (Plain c)); auto. congruence.
        - destruct (keyb_spec k (Plain c)); auto.
        - unfold is_path. destruct (resolve p') as [c'|] eqn:R'; auto.
          destruct (keyb_spec (Plain c') (Plain c)); auto. }
      assert (NL : forall p' v', In (p', v') (lazy s) -> resolve p' <> Some c).
      { intros p' v' H Q. destruct (i_lazy _ _ I _ _ H) as [c' [_ [_ [_ [r' H4]]]]].
        destruct (T1 _ _ H4) as [A _]. apply A. exact Q. }
      assert (NH : gget keyb (handlers s) (Plain c) = None).
      { destruct (i_reg _ _ I (Plain c)) as [Q|[Q _]]; congruence. }
      assert (NP : ~ In p (gkeys (lazy s))).
      { intros H. unfold gkeys in H. apply in_map_iff in H. destruct H as [[p' v'] [Q H]]. simpl in Q. subst p'.
        eapply NL; eauto. }
      constructor; simpl.
      + intros k. rewrite (is_path_key p c k R). destruct (keyb_spec (Plain c) k) as [<-|N].
        * right. split; auto. exists p, v, c. repeat split; auto. apply In_gset1.
        * destruct (i_reg _ _ I k) as [Q|[Q [p' [v' [c' [H1 [H2 [H3 H4]]]]]]]]; auto.
          right. split; auto. exists p', v', c'. repeat split; auto. apply In_gset2; auto.
          intros ->. congruence.
      + intros p' v' H. destruct (gset_In _ _ _ _ _ H) as [[-> ->]|H'].
        * exists c. rewrite (is_path_key p c _ R). destruct (keyb_spec (Plain c) (Plain c)); [|congruence].
          repeat split; eauto.
        * destruct (i_lazy _ _ I _ _ H') as [c' [H1 [H2 [H3 [r' H4]]]]]. exists c'.
          rewrite (is_path_key p c _ R). destruct (keyb_spec (Plain c) (Plain c')) as [Q|Q].
          -- exfalso. injection Q as <-. eapply NL; eauto.
          -- repeat split; eauto.
      + intros p1 p2 c' H1 H2 R1 R2.
        apply (gkeys_gset _ Nat.eqb_spec) in H1. apply (gkeys_gset _ Nat.eqb_spec) in H2.
        assert (K : forall x, In x (gkeys (lazy s)) -> resolve x <> Some c).
        { intros x Hx. unfold gkeys in Hx. apply in_map_iff in Hx. destruct Hx as [[p' v'] [Q Hx]]. simpl in Q. subst.
          eapply NL; eauto. }
        destruct H1 as [->|H1], H2 as [->|H2]; auto.
        * exfalso. apply (K p2 H2). congruence.
        * exfalso. apply (K p1 H1). congruence.
        * eapply i_one; eauto.
      + apply (NoDup_gset _ Nat.eqb_spec). apply (i_nd _ _ I).
      + intros k' v' E. eapply i_look; eauto.
      + intros k' v' E HN [F1 F2]. rewrite (nearest_ext _ h).
        * eapply i_inh; eauto.
        * intros x Hx. simpl. rewrite (is_path_key p c x R). destruct (keyb_spec (Plain c) x) as [<-|]; auto.
          exfalso. eapply F1; eauto. eapply i_look; eauto.
    - injection S as <- <-. destruct T as [T TT].
      assert (NW : forall p' v' c, In (p', v') (lazy s) -> resolve p' = Some c -> k <> Plain c).
      { intros p' v' c H R ->. destruct (i_lazy _ _ I _ _ H) as [c' [_ [_ [_ [r' H4]]]]].
        destruct (TT c) as [_ T2]. apply (T2 eq_refl _ _ H4). exact R. }
      constructor; simpl; try discriminate.
      + intros k'. rewrite (gget_gdel _ keyb_spec). destruct (keyb_spec k k') as [<-|N]; auto.
        apply (i_reg _ _ I).
      + intros p' v' H. destruct (i_lazy _ _ I _ _ H) as [c [H1 [H2 [H3 [r' H4]]]]]. exists c.
        rewrite (gget_gdel _ keyb_spec). destruct (keyb_spec k (Plain c)); [exfalso; eapply NW; eauto|].
        repeat split; eauto.
      + apply (i_one _ _ I).
      + apply (i_nd _ _ I).
    - injection S as <- <-. destruct T as [T TT].
      destruct (resolve p) as [c|] eqn:R; [|exfalso; now apply (paths p)].
      destruct (TT c) as [T1 _]. specialize (T1 R).
      assert (NR : registered h (Plain c) = None).
      { clear -T1 paths. induction h as [|[e r] h IH]; auto.
        assert (IH' := IH (fun e' r' H => T1 e' r' (or_intror H))).
        destruct (T1 e r (or_introl eq_refl)) as [A B].
        destruct e as [k v'|p' v'|k|p'|k|]; simpl in *; auto.
        - destruct (keyb_spec k (Plain c)); auto. congruence.
        - unfold is_path. destruct (resolve p') as [c'|] eqn:R'; auto.
          destruct (keyb_spec (Plain c') (Plain c)); auto. congruence.
        - destruct (keyb_spec k (Plain c)); auto.
        - unfold is_path. destruct (resolve p') as [c'|] eqn:R'; auto.
          destruct (keyb_spec (Plain c') (Plain c)); auto. }
      assert (NL : forall p' v', In (p', v') (lazy s) -> resolve p' <> Some c).
      { intros p' v' H Q. destruct (i_lazy _ _ I _ _ H) as [c' [_ [_ [_ [r' H4]]]]].
        destruct (T1 _ _ H4) as [A _]. apply A. exact Q. }
      assert (NP : gget Nat.eqb (lazy s) p = None).
      { apply (gget_None _ Nat.eqb_spec). intros H. unfold gkeys in H. apply in_map_iff in H.
        destruct H as [[p' v'] [Q H]]. simpl in Q. subst p'. eapply NL; eauto. }
      rewrite (gdel_id _ _ _ NP).
      assert (RE : forall k, (if is_path resolve p k then None else registered h k) = registered h k).
      { intros k. rewrite (is_path_key p c k R). destruct (keyb_spec (Plain c) k) as [<-|]; auto. }
      constructor; simpl; try discriminate.
      + intros k. rewrite RE. apply (i_reg _ _ I).
      + intros p' v' H. destruct (i_lazy _ _ I _ _ H) as [c' [H1 [H2 [H3 [r' H4]]]]]. exists c'.
        rewrite RE. repeat split; eauto.
      + apply (i_one _ _ I).
      + apply (i_nd _ _ I).
    - destruct (lookup_ok s h k I) as [L _]. rewrite S in L. exact L.
    - destruct (reload_ok s h I) as [s1 [R [L [IH [G D]]]]]. rewrite R in S. injection S as <- <-.
      apply (inv_quiet s); simpl; auto. intros k v E. left. now rewrite IH in E.
  Qed.

  Lemma reach_inv : forall s h, reach mro resolve s h -> tame h -> inv s h.
  Proof.
    induction 1; intros T; [apply inv_init|]. eapply inv_step; eauto. apply IHreach. now apply tame_tl in T.
  Qed.
End Proofs.

(** C27, proved for lookups of a type none of whose ancestors was registered
    since an earlier lookup of that type ([fresh]; a later unregister of any type
    makes it right again), and as long as a class registered by import path is not
    touched by other operations ([tame]). *)
Theorem C27_nearest_ancestor_partial : forall mro resolve,
  (forall c, hd_error (mro c) = Some c) -> (forall p, resolve p <> None) ->
  forall s h k, reach mro resolve s h -> tame resolve h -> fresh mro resolve h k ->
    snd (step mro resolve s (ELookup k)) = right_answer mro resolve h k.
Proof.
  intros mro resolve M P s h k R T F. destruct (lookup_ok mro resolve M P s h k) as [_ L]; auto.
  eapply reach_inv; eauto.
Qed.

Lemma looked_split : forall h k, looked h k -> exists k' r l1 l2, h = l1 ++ (ELookup k', r) :: l2.
Proof.
  induction h as [|[e r] h IH]; simpl; intros k L; [tauto|].
  assert (D : looked h k -> exists k' r' l1 l2, (e, r) :: h = l1 ++ (ELookup k', r') :: l2).
  { intros Q. destruct (IH _ Q) as [k' [r0 [l1 [l2 ->]]]]. exists k', r0, ((e, r) :: l1), l2. reflexivity. }
  destruct e; auto; try tauto. exists k0, r, [], h. reflexivity.
Qed.

(** In particular after unregistering, and when types are registered before the
    first lookup (as the package does at import). *)
Theorem C27_registered_before_lookups_partial : forall mro resolve,
  (forall c, hd_error (mro c) = Some c) -> (forall p, resolve p <> None) ->
  forall s h k, reach mro resolve s h -> tame resolve h ->
    (forall l1 l2 k' r, h = l1 ++ (ELookup k', r) :: l2 -> forall x y, In (x, y) l1 ->
       match x with ERegister _ _ | ERegisterPath _ _ => False | _ => True end) ->
    snd (step mro resolve s (ELookup k)) = right_answer mro resolve h k.
Proof.
  intros mro resolve M P s h k R T F. apply C27_nearest_ancestor_partial; auto.
  clear -F. induction h as [|[e r] h IH]; simpl; auto.
  assert (FH : fresh mro resolve h k).
  { apply IH. intros l1 l2 k' r' E x y Hx. refine (F ((e, r) :: l1) l2 k' r' _ x y _); [simpl; rewrite E; reflexivity|now right]. }
  destruct e; auto; split; auto; intros; intros L; destruct (looked_split _ _ L) as [k' [r0 [l1 [l2 E]]]]; rewrite E in F.
  - exact (F ((ERegister k0 v, r) :: l1) l2 k' r0 eq_refl _ _ (or_introl eq_refl)).
  - exact (F ((ERegisterPath p v, r) :: l1) l2 k' r0 eq_refl _ _ (or_introl eq_refl)).
Qed.

(** Paths that cannot be imported.  [broken h]: a path that leads nowhere was registered
    and not unregistered since.  As long as there is one, reloading raises, and a lookup
    raises or finds an exact or remembered handler: it never answers that there is none.
    Without one, nothing raises ImportError. *)
Definition broken (resolve : nat -> option nat) (h : history) : Prop :=
  exists l1 p v r l2, h = l1 ++ (ERegisterPath p v, r) :: l2 /\ resolve p = None /\
    forall r', ~ In (EUnregisterPath p, r') l1.
Lemma load_spec resolve l : forall hs, snd (load resolve hs l) = true <-> forall p, In p (gkeys l) -> resolve p <> None.
Proof.
  induction l as [|[p v] l IH]; intros hs; cbn; [split; [intros _ ? []|reflexivity]|].
  destruct (resolve p) as [c|] eqn:E; cbn.
  - rewrite IH. split; intros H q; [intros [<-|X]; [congruence|auto]|auto].
  - split; [discriminate|]. intros H. exfalso. apply (H p); auto.
Qed.
Lemma reload_spec resolve s : (snd (reload resolve s) = true <-> forall p, In p (gkeys (lazy s)) -> resolve p <> None) /\
  lazy (fst (reload resolve s)) = if snd (reload resolve s) then [] else lazy s.
Proof.
  unfold reload. assert (H := load_spec resolve (lazy s) (handlers s)).
  destruct (load resolve (handlers s) (lazy s)) as [hs [|]]; cbn in *; auto.
Qed.
Lemma lazy_broken mro resolve s h : reach mro resolve s h ->
  forall p, resolve p = None ->
  (In p (gkeys (lazy s)) <-> exists l1 v r l2, h = l1 ++ (ERegisterPath p v, r) :: l2 /\ forall r', ~ In (EUnregisterPath p, r') l1).
Proof.
  induction 1 as [|s h e s' r R IH E]; intros p HP; cbn.
  - split; [intros []|]. intros (l1 & v & r & l2 & X & _). destruct l1; discriminate.
  - assert (KEEP : (forall v, e <> ERegisterPath p v) -> e <> EUnregisterPath p ->
      ((exists l1 v r0 l2, (e, r) :: h = l1 ++ (ERegisterPath p v, r0) :: l2 /\ forall r', ~ In (EUnregisterPath p, r') l1)
      <-> In p (gkeys (lazy s)))).
    { intros N1 N2. rewrite (IH p HP). split.
      - intros ([|x l1] & v & r0 & l2 & X & Y); cbn in X; [injection X; intros; subst; now destruct (N1 v)|].
        injection X as <- X. exists l1, v, r0, l2. split; [exact X|]. intros r' I1. apply (Y r'). now right.
      - intros (l1 & v & r0 & l2 & -> & Y). exists ((e, r) :: l1), v, r0, l2. split; [reflexivity|].
        intros r' [I1|I1]; [congruence|]. now apply (Y r'). }
    assert (RL : In p (gkeys (lazy (fst (reload resolve s)))) <-> In p (gkeys (lazy s))).
    { destruct (reload_spec resolve s) as [A B]. rewrite B. destruct (snd (reload resolve s)); [|reflexivity].
      split; [intros []|]. intros I1. exfalso. apply (proj1 A eq_refl p I1 HP). }
    destruct e as [k v|q v|k|q|k|]; cbn [step] in E.
    + injection E as <- <-. cbn [lazy]. rewrite KEEP by discriminate. reflexivity.
    + injection E as <- <-. cbn [lazy]. rewrite (gkeys_gset _ Nat.eqb_spec). destruct (Nat.eq_dec p q) as [<-|N].
      * split; [|auto]. intros _. exists [], v, RDone, h. split; [reflexivity|]. intros r' [].
      * rewrite KEEP; [|congruence|discriminate]. split; [intros [X|X]; [congruence|exact X]|auto].
    + injection E as <- <-. cbn [lazy]. rewrite KEEP by discriminate. reflexivity.
    + injection E as <- <-. cbn [lazy]. rewrite (gkeys_gdel _ Nat.eqb_spec). destruct (Nat.eq_dec p q) as [<-|N].
      * split; [intros [X _]; congruence|]. intros ([|x l1] & v & r0 & l2 & X & Y); cbn in X; [discriminate|].
        injection X as <- X. exfalso. apply (Y RDone). now left.
      * rewrite KEEP; [|discriminate|congruence]. tauto.
    + rewrite KEEP by discriminate. rewrite <- RL. unfold get_handler in E.
      destruct (gget keyb (handlers s) k); [injection E as <- <-; now rewrite RL|].
      destruct (gget keyb (inherit s) k); [injection E as <- <-; now rewrite RL|].
      destruct (reload resolve s) as [s1 [|]]; cbn [fst]; [|now injection E as <- <-].
      destruct (first_handler _ _); injection E as <- <-; reflexivity.
    + rewrite KEEP by discriminate. rewrite <- RL. destruct (reload resolve s) as [s1 ok]. now injection E as <- <-.
Qed.
Theorem C27_import_errors : forall mro resolve s h, reach mro resolve s h ->
  (broken resolve h -> snd (step mro resolve s EReload) = RImportError /\
     forall k, snd (step mro resolve s (ELookup k)) = RImportError \/ exists v, snd (step mro resolve s (ELookup k)) = RFound v) /\
  (~ broken resolve h -> snd (step mro resolve s EReload) = RDone /\
     forall k, snd (step mro resolve s (ELookup k)) <> RImportError).
Proof.
  intros mro resolve s h R. assert (LB := lazy_broken _ _ _ _ R). destruct (reload_spec resolve s) as [A _]. split.
  - intros (l1 & p & v & r & l2 & X & HP & Y).
    assert (F : snd (reload resolve s) = false).
    { apply not_true_is_false. intros T. apply (proj1 A T p); [|exact HP]. apply (LB p HP). exists l1, v, r, l2. auto. }
    cbn [step]. unfold get_handler. destruct (reload resolve s) as [s1 ok]. cbn in F. subst ok. split; [reflexivity|].
    intros k. destruct (gget keyb (handlers s) k); [cbn; eauto|]. destruct (gget keyb (inherit s) k); cbn; eauto.
  - intros NB. assert (T : snd (reload resolve s) = true).
    { apply A. intros p I1 HP. apply NB. apply (LB p HP) in I1. destruct I1 as (l1 & v & r & l2 & X & Y). exists l1, p, v, r, l2. auto. }
    cbn [step]. unfold get_handler. destruct (reload resolve s) as [s1 ok]. cbn in T. subst ok. split; [reflexivity|].
    intros k. destruct (gget keyb (handlers s) k); [discriminate|]. destruct (gget keyb (inherit s) k); [discriminate|].
    destruct (first_handler _ _); discriminate.
Qed.

Module Demo.
  (** class 2 derives from 1, 1 from 0 *)
  Definition mro (c : nat) : list nat := match c with 2 => [2; 1; 0] | 1 => [1; 0] | _ => [c] end.
  Definition resolve (p : nat) : option nat := Some (p + 10).
  Lemma mro_ok : forall c, hd_error (mro c) = Some c.
  Proof. intros [|[|[|c]]]; reflexivity. Qed.
  Lemma resolve_ok : forall p, resolve p <> None.
  Proof. discriminate. Qed.
  Fixpoint run (s : st) (h : history) (l : list ev) : st * history :=
    match l with
    | [] => (s, h)
    | e :: l' => let (s', r) := step mro resolve s e in run s' ((e, r) :: h) l'
    end.
  Lemma run_reach : forall l s h, reach mro resolve s h -> reach mro resolve (fst (run s h l)) (snd (run s h l)).
  Proof.
    induction l as [|e l IH]; intros s h R; simpl; auto.
    destruct (step mro resolve s e) as [s' r] eqn:E. apply IH. econstructor; eauto.
  Qed.
  Definition good := run init [] [ERegister (Plain 0) 100; ELookup (Plain 2); ERegister (Plain 1) 101;
    EUnregister (Plain 7); ELookup (Plain 2); ERegister (Named 5 0) 105; ERegisterPath 3 113].
  Example reachable : reach mro resolve (fst good) (snd good).
  Proof. apply run_reach. constructor. Qed.
  Example meets : tame resolve (snd good) /\ fresh mro resolve (snd good) (Plain 2) /\
    fresh mro resolve (snd good) (Named 5 2) /\ fresh mro resolve (snd good) (Plain 13) /\
    right_answer mro resolve (snd good) (Plain 2) = RFound 101 /\
    right_answer mro resolve (snd good) (Named 5 2) = RFound 101 /\
    right_answer mro resolve (snd good) (Named 5 0) = RFound 105 /\
    right_answer mro resolve (snd good) (Plain 13) = RFound 113.
  Proof.
    cbn. repeat split; auto; intros;
      repeat match goal with
        | H : resolve 3 = Some _ |- _ => vm_compute in H; injection H as <-
        | H : _ \/ _ |- _ => destruct H
        | H : False |- _ => destruct H
        | H : (_, _) = (_, _) |- _ => injection H as <- <-
        | |- ~ _ => intros ?
        end; simpl in *; try congruence; try tauto.
  Qed.
  Definition nowhere (p : nat) : option nat := if p =? 3 then None else Some (p + 10).
  Example ex_broken : let sh := (fst (step mro nowhere init (ERegisterPath 3 1)), [(ERegisterPath 3 1, RDone)]) in
    reach mro nowhere (fst sh) (snd sh) /\ broken nowhere (snd sh) /\ ~ broken nowhere [].
  Proof.
    cbn. split; [eapply r_step; [apply r_init|reflexivity]|]. split.
    - exists [], 3, 1, RDone, []. repeat split. intros r' [].
    - intros (l1 & p & v & r & l2 & X & _). destruct l1; discriminate.
  Qed.
End Demo.

(** The classes 0 <- 1 <- 2: register 0, look 2 up, register 1, look 2 up. *)
Theorem C27_stale_handler_refuted : exists mro resolve, ~ C27_claim mro resolve.
Proof.
  exists Demo.mro, Demo.resolve. intros C.
  pose (sh := Demo.run init [] [ERegister (Plain 0) 100; ELookup (Plain 2); ERegister (Plain 1) 101]).
  assert (R : reach Demo.mro Demo.resolve (fst sh) (snd sh)) by (apply Demo.run_reach; constructor).
  pose proof (C Demo.mro_ok Demo.resolve_ok _ _ (Plain 2) R) as H. discriminate H.
Qed.
(** A pending registration by path replaces a later one by class, but only after
    some other lookup. *)
Theorem C27_path_replaces_later_class_refuted :
  let sh := Demo.run init [] [ERegisterPath 0 1; ERegister (Plain 10) 2] in
  snd (step Demo.mro Demo.resolve (fst sh) (ELookup (Plain 10))) = RFound 2 /\
  let s2 := fst (step Demo.mro Demo.resolve (fst sh) (ELookup (Plain 7))) in
  snd (step Demo.mro Demo.resolve s2 (ELookup (Plain 10))) = RFound 1.
Proof. split; reflexivity. Qed.
(** Unregistering a class leaves its pending path registration. *)
Theorem C27_unregister_misses_pending_refuted :
  let sh := Demo.run init [] [ERegisterPath 0 1; EUnregister (Plain 10)] in
  snd (step Demo.mro Demo.resolve (fst sh) (ELookup (Plain 10))) = RFound 1 /\
  right_answer Demo.mro Demo.resolve (snd sh) (Plain 10) = RKeyError.
Proof. split; reflexivity. Qed.

Print Assumptions C27_import_errors.
Print Assumptions C27_nearest_ancestor_partial.
Print Assumptions C27_registered_before_lookups_partial.
Print Assumptions C27_stale_handler_refuted.
Print Assumptions C27_path_replaces_later_class_refuted.
Print Assumptions C27_unregister_misses_pending_refuted.
