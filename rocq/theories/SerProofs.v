(** Deserializing what was serialized: the invariant between the serializer's
    state and the deserializer's. *)
From Coq Require Import List Arith Bool Lia Relations.
From Verif Require Import Base Dict SerModel SerSpec SerMachine.
Import ListNotations.

Section S.
  Variables P C H B : Type.
  Variable leaf_head : C -> H.
  Variable leaf_bufs : C -> list B.
  Variable leaf_load : H -> list B -> option C.
  Hypothesis leaf_ok : forall c, leaf_load (leaf_head c) (leaf_bufs c) = Some c.
  Notation heap := (heap P C).
  Notation tree := (tree P H).
  Notation serial_single := (serial_single P C H B leaf_head leaf_bufs).
  Notation ser := (ser P C H B leaf_head leaf_bufs).
  Notation sers := (sers P H B).
  Notation deserial_single := (deserial_single P C H B leaf_load).
  Notation des := (des P C H B leaf_load).
  Notation dess := (dess P C H B).
  Notation dst := (dst P C).
  Notation dval := (dval P).
  Notation val := (val P).

  Variable h : heap.
  Variable root : nat.

  Notation slot := (SerSpec.slot P C h).
  Notation edge := (SerSpec.edge P C h).
  Notation reach := (SerSpec.reach P C h).
  Notation empty := (SerSpec.empty P C h).
  Notation from := (SerSpec.from P C h root).
  Notation trail := (SerSpec.trail P C h root).
  Notation closed := (SerSpec.closed P C h root).
  Notation frozen_ok := (SerSpec.frozen_ok P C h root).
  Notation acyclic := (SerSpec.acyclic P C h root).
  Notation once := (SerSpec.once P C h root).

  Hypothesis CL : closed.
  Hypothesis FR : frozen_ok.
  Hypothesis MODE : acyclic \/ once.

  Definition cxg (t : dst) (id : nat) := gget Nat.eqb (cx _ _ t) id.
  Definition path := list (nat * nat).
  Definition pa (l : path) : list nat := map fst l.

  Definition resok (s : sst) (t : dst) (f : list nat) (l : path) (v : val) (w : dval) : Prop :=
    match v, w with
    | VP p, DP q => p = q
    | VR b, DR b' => nth_error f b' = Some b
    | VR b, DPh id => did s b = Some id /\ In b (pa l) /\ exists cbs, cxg t id = Some (CPh cbs)
    | _, _ => False
    end.
  Definition slotok (s : sst) (t : dst) (f : list nat) (l : path) (a' i : nat) (v : val) (w : dval) : Prop :=
    match v, w with
    | VP p, DP q => p = q
    | VR b, DR b' => nth_error f b' = Some b
    | VR b, DPh id => did s b = Some id /\ In b (pa l) /\
                      exists cbs, cxg t id = Some (CPh cbs) /\ In (a', i) cbs
    | _, _ => False
    end.
  Definition objok s t f l a' (o : obj P C) (o' : dobj P C) : Prop :=
    match o, o' with
    | OLeaf c, DLeaf c' => c = c'
    | ONode k vs, DNode k' ws => k = k' /\ length vs = length ws /\
        forall i v w, nth_error vs i = Some v -> nth_error ws i = Some w -> slotok s t f l a' i v w
    | _, _ => False
    end.

  Record Inv (s : sst) (t : dst) (f : list nat) (l : path) : Prop := {
    v_len : length f = length (dh _ _ t);
    v_num : forall a, In a (ctx s) -> exists id, did s a = Some id /\ id < length (d s);
    v_inj : forall a b id, In a (ctx s) -> In b (ctx s) -> did s a = Some id -> did s b = Some id -> a = b;
    v_dom : forall a, did s a <> None -> In a (ctx s) \/ empty a;
    v_ctx : forall a, In a (ctx s) -> ~ empty a /\ from a;
    v_trail : l = [] \/ trail (pa l);
    v_pctx : forall a, In a (pa l) -> In a (ctx s);
    v_done : forall a id, In a (ctx s) -> ~ In a (pa l) -> did s a = Some id ->
               exists a', cxg t id = Some (CV (DR a')) /\ nth_error f a' = Some a;
    v_open : forall a id w, In a (pa l) -> did s a = Some id -> cxg t id = Some (CV w) -> ~ reach a a;
    v_obj : forall a' a, nth_error f a' = Some a -> exists o o',
               nth_error h a = Some o /\ nth_error (dh _ _ t) a' = Some o' /\ objok s t f l a' o o';
    v_cb : forall id cbs, cxg t id = Some (CPh cbs) -> exists b, In b (pa l) /\ did s b = Some id /\
               forall a' i, In (a', i) cbs -> exists a, nth_error f a' = Some a /\ slot a i (VR b);
    v_back : forall a' a, nth_error f a' = Some a -> ~ empty a ->
               In a (ctx s) /\ ~ In a (pa l) /\ forall id, did s a = Some id -> cxg t id = Some (CV (DR a'));
    v_once : once -> (forall id e, cxg t id = Some e -> id < length (d s)) /\
               (forall e, empty e -> did s e <> None -> exists b j, In b (ctx s) /\ slot b j (VR e) /\
                  forall i, In (b, i) l -> j < i)
  }.

  Record Ext (s : sst) (t : dst) (f : list nat) (s' : sst) (t' : dst) (f' : list nat) (l : path) : Prop := {
    x_f : forall a' a, nth_error f a' = Some a -> nth_error f' a' = Some a;
    x_ctx : forall a, In a (ctx s) -> In a (ctx s');
    x_d : forall a, In a (ctx s) -> did s' a = did s a;
    x_ph : forall b id cbs, In b (pa l) -> did s b = Some id -> cxg t id = Some (CPh cbs) ->
             exists cbs', cxg t' id = Some (CPh cbs')
  }.

  Lemma ext_refl : forall s t f l, Ext s t f s t f l.
  Proof. intros. constructor; eauto. Qed.
  Lemma ext_trans : forall s t f s1 t1 f1 s2 t2 f2 l, (forall a, In a (pa l) -> In a (ctx s)) ->
    Ext s t f s1 t1 f1 l -> Ext s1 t1 f1 s2 t2 f2 l -> Ext s t f s2 t2 f2 l.
  Proof.
    intros s t f s1 t1 f1 s2 t2 f2 l PC [A1 A2 A3 A4] [B1 B2 B3 B4]. constructor; eauto.
    - intros a I. rewrite B3; auto.
    - intros b id cbs I D G. destruct (A4 _ _ _ I D G) as [c1 G1]. apply (B4 b id c1); auto.
      rewrite A3; auto.
  Qed.
  Lemma resok_ext : forall s t f s' t' f' l v w, (forall a, In a (pa l) -> In a (ctx s)) ->
    Ext s t f s' t' f' l -> resok s t f l v w -> resok s' t' f' l v w.
  Proof.
    intros s t f s' t' f' l v w PC [A1 A2 A3 A4] R. destruct v as [p|b], w as [q|b'|id]; simpl in *; auto.
    destruct R as [R1 [R2 [cbs R3]]]. repeat split; auto; [rewrite A3; auto|]. eauto.
  Qed.

  Lemma slot_edge : forall a i b, slot a i (VR b) -> edge a b.
  Proof. intros a i b S. exists i. exact S. Qed.
  Lemma slot_fun : forall a i v w, slot a i v -> slot a i w -> v = w.
  Proof. intros a i v w [k [vs [A1 A2]]] [k' [vs' [B1 B2]]]. congruence. Qed.
  Lemma from_edge : forall a b, from a -> edge a b -> from b.
  Proof.
    intros a b [->|R] E; right; [now apply t_step|]. eapply t_trans; [exact R|]. now apply t_step.
  Qed.

  (** Going along a trail. *)
  Lemma trail_reach : forall l, trail l -> forall a r b, l = a :: r -> In b r -> reach b a.
  Proof.
    clear CL FR MODE. induction 1 as [|a l b T IH E N]; intros a' r c Q I; inversion Q; subst.
    - contradiction.
    - destruct I as [->|I]; [now apply t_step|].
      eapply t_trans; [eapply IH; eauto|]. now apply t_step.
  Qed.
  Lemma trail_from : forall l, trail l -> forall a, In a l -> from a.
  Proof.
    induction 1 as [|a l b T IH E N]; intros c I.
    - destruct I as [<-|[]]. now left.
    - destruct I as [<-|I]; auto. eapply from_edge; eauto. apply IH. now left.
  Qed.
  Lemma trail_nodup : forall l, trail l -> NoDup l.
  Proof. induction 1; constructor; auto. constructor. Qed.

  Lemma known_iff : forall s a, known s a = true <-> In a (ctx s).
  Proof.
    intros s a. unfold known. rewrite existsb_exists. split.
    - intros [x [I E]]. apply Nat.eqb_eq in E. now subst.
    - intros I. exists a. split; auto. apply Nat.eqb_refl.
  Qed.
  Lemma empty_dec : forall a, empty a \/ ~ empty a.
  Proof.
    intros a. unfold empty. destruct (nth_error h a) as [[c|k vs]|]; try (right; discriminate).
    destruct k as [ty|ty|[|ty]]; try (right; discriminate).
    destruct vs; [left; reflexivity|right; discriminate].
  Qed.

  (** serial_single, case by case. *)
  Lemma ss_empty : forall s a, empty a ->
    serial_single h s a = Some (HEmpty (length (d s)), inl [], snd (number s a false)).
  Proof. intros s a E. unfold SerModel.serial_single. rewrite E. reflexivity. Qed.
  Lemma ss_other : forall s a o, ~ empty a -> nth_error h a = Some o ->
    serial_single h s a =
      if known s a then Some (HRef (match did s a with Some id => id | None => 0 end), inl [], s)
      else match o with
           | OLeaf c => Some (HLeaf (length (d s)) (leaf_head c) (length (leaf_bufs c)), inl (leaf_bufs c),
                              snd (number s a true))
           | ONode k vs => Some (HNode (length (d s)) k (map (inline_of P) vs), inr (refs P vs),
                              snd (number s a true))
           end.
  Proof.
    intros s a o N E. unfold SerModel.serial_single. rewrite E. unfold empty in N. rewrite E in N.
    destruct o as [c|k vs]; [reflexivity|].
    destruct k as [ty|ty|[|ty]]; try reflexivity. destruct vs; [congruence|reflexivity].
  Qed.

  Lemma did_number : forall s a add x, did (snd (number s a add)) x = if a =? x then Some (length (d s)) else did s x.
  Proof. intros. unfold number, did. simpl. apply (gget_gset _ Nat.eqb_spec). Qed.
  Lemma len_number_new : forall s a add, did s a = None -> length (d (snd (number s a add))) = S (length (d s)).
  Proof.
    intros s a add E. unfold number. simpl. rewrite gset_new, app_length; [simpl; lia|auto].
  Qed.
  Lemma len_gset_ge : forall (l : list (nat * nat)) k v, length l <= length (gset Nat.eqb l k v).
  Proof. induction l as [|[k0 v0] l IH]; simpl; intros k v; [lia|]. destruct (k0 =? k); simpl; [lia|]. specialize (IH k v). lia. Qed.
  Lemma len_number_ge : forall s a add, length (d s) <= length (d (snd (number s a add))).
  Proof. intros. unfold number. simpl. apply len_gset_ge. Qed.

  (** Moving on to the next slot. *)
  Definition bump (l : path) : path := match l with [] => [] | (a, i) :: r => (a, S i) :: r end.
  Lemma pa_bump : forall l, pa (bump l) = pa l.
  Proof. destruct l as [|[a i] r]; reflexivity. Qed.
  Lemma objok_pa : forall s t f l l' a' o o', pa l = pa l' -> objok s t f l a' o o' -> objok s t f l' a' o o'.
  Proof.
    intros s t f l l' a' o o' E. unfold objok, slotok. rewrite E. auto.
  Qed.
  Lemma inv_bump : forall s t f l, Inv s t f l -> Inv s t f (bump l).
  Proof.
    intros s t f l I. destruct l as [|[a i] r]; [exact I|].
    pose proof (pa_bump ((a, i) :: r)) as PB. destruct I.
    constructor; try rewrite PB; auto.
    - destruct v_trail0 as [E|E]; [discriminate|]. right. exact E.
    - intros O. destruct (v_once0 O) as [A1 A2]. split; auto. intros e E D.
      destruct (A2 e E D) as [b [j [B1 [B2 B3]]]]. exists b, j. repeat split; auto.
      intros i0 [Q|Q]; [|apply B3; now right]. inversion Q; subst.
      specialize (B3 i (or_introl eq_refl)). lia.
  Qed.

  (** Where a visit comes from. *)
  Definition arrive (l : path) (b : nat) : Prop :=
    match l with [] => b = root /\ ~ empty b | (a, i) :: _ => slot a i (VR b) end.
  Lemma arrive_from : forall s t f l b, Inv s t f l -> arrive l b -> from b.
  Proof.
    intros s t f l b I A. destruct l as [|[a i] r]; simpl in A; [left; tauto|].
    eapply from_edge; [|eapply slot_edge; eauto]. destruct (v_trail _ _ _ _ I) as [E|E]; [discriminate|].
    eapply trail_from; eauto. now left.
  Qed.
  Lemma arrive_in : forall s t f l b, Inv s t f l -> arrive l b -> b < length h.
  Proof.
    intros s t f l b I A. destruct CL as [C1 C2]. destruct l as [|[a i] r]; simpl in A; [destruct A; now subst|].
    apply (C2 a); [|eapply slot_edge; eauto]. destruct (v_trail _ _ _ _ I) as [E|E]; [discriminate|].
    eapply trail_from; eauto. now left.
  Qed.

  (** *** Case 1: an empty dictionary *)
  Lemma cxg_new : forall (t : dst) id o id', cxg (snd (new_obj P C t id o)) id' =
    if id =? id' then Some (CV (DR (length (dh _ _ t)))) else cxg t id'.
  Proof. intros. unfold cxg, new_obj, set_context. simpl. apply (gget_gset _ Nat.eqb_spec). Qed.

  Lemma nth_snoc : forall A (l : list A) x i y, nth_error (l ++ [x]) i = Some y ->
    nth_error l i = Some y \/ (i = length l /\ x = y).
  Proof.
    intros A l x i y E. destruct (Nat.lt_ge_cases i (length l)).
    - left. now rewrite nth_error_app1 in E.
    - rewrite nth_error_app2 in E by auto. destruct (i - length l) as [|n] eqn:D.
      + simpl in E. inversion E. right. split; [lia|auto].
      + simpl in E. destruct n; discriminate.
  Qed.
  Lemma nth_snoc_old : forall A (l : list A) x i y, nth_error l i = Some y -> nth_error (l ++ [x]) i = Some y.
  Proof. intros. rewrite nth_error_app1; auto. apply nth_error_Some. congruence. Qed.
  Lemma nth_snoc_new : forall A (l : list A) x, nth_error (l ++ [x]) (length l) = Some x.
  Proof. intros. rewrite nth_error_app2, Nat.sub_diag; auto. Qed.

  (** An object that no placeholder waits for. *)
  Lemma dh_new : forall (t : dst) id o, (forall cbs, cxg t id <> Some (CPh cbs)) ->
    dh _ _ (snd (new_obj P C t id o)) = dh _ _ t ++ [o].
  Proof.
    intros t id o N. unfold new_obj, set_context. simpl. fold (cxg t id).
    destruct (cxg t id) as [[w|cbs]|] eqn:E; auto. exfalso. eapply N; eauto.
  Qed.

  Lemma no_ph_new : forall s t f l, Inv s t f l -> forall id, length (d s) <= id -> forall cbs, cxg t id <> Some (CPh cbs).
  Proof.
    intros s t f l I id L cbs E. destruct (v_cb _ _ _ _ I _ _ E) as [b [B1 [B2 _]]].
    apply (v_pctx _ _ _ _ I) in B1. destruct (v_num _ _ _ _ I _ B1) as [x [X1 X2]]. assert (x = id) by congruence. lia.
  Qed.

  Lemma slotok_mono : forall s t f s' t' f' l a' i v w,
    (forall b, In b (pa l) -> did s' b = did s b) ->
    (forall id cbs, cxg t id = Some (CPh cbs) -> cxg t' id = Some (CPh cbs)) ->
    (forall x a, nth_error f x = Some a -> nth_error f' x = Some a) ->
    slotok s t f l a' i v w -> slotok s' t' f' l a' i v w.
  Proof.
    intros s t f s' t' f' l a' i v w D G F S. destruct v as [p|b], w as [q|b'|id]; simpl in *; auto.
    destruct S as [S1 [S2 [cbs [S3 S4]]]]. repeat split; auto; [rewrite D; auto|]. exists cbs. auto.
  Qed.
  Lemma objok_mono : forall s t f s' t' f' l a' o o',
    (forall b, In b (pa l) -> did s' b = did s b) ->
    (forall id cbs, cxg t id = Some (CPh cbs) -> cxg t' id = Some (CPh cbs)) ->
    (forall x a, nth_error f x = Some a -> nth_error f' x = Some a) ->
    objok s t f l a' o o' -> objok s' t' f' l a' o o'.
  Proof.
    intros s t f s' t' f' l a' o o' D G F S. destruct o as [c|k vs], o' as [c'|k' ws]; simpl in *; auto.
    destruct S as [S1 [S2 S3]]. repeat split; auto. intros. eapply slotok_mono; eauto.
  Qed.

  Lemma visit_empty : forall s t f l b, Inv s t f l -> arrive l b -> empty b ->
    let s' := snd (number s b false) in
    let '(w, t') := new_obj P C t (length (d s)) (DNode (KDict 0) []) in
    let f' := f ++ [b] in
    Inv s' t' f' (bump l) /\ Ext s t f s' t' f' l /\ resok s' t' f' l (VR b) w.
  Proof.
    intros s t f l b I A E s'.
    destruct (new_obj P C t (length (d s)) (DNode (KDict 0) [])) as [w t'] eqn:N.
    intros f'.
    assert (T' : t' = snd (new_obj P C t (length (d s)) (DNode (KDict 0) []))) by (now rewrite N).
    assert (W : w = DR (length (dh _ _ t))) by (unfold new_obj in N; congruence).
    pose proof (no_ph_new _ _ _ _ I) as NP.
    assert (DH : dh _ _ t' = dh _ _ t ++ [DNode (KDict 0) []]) by (rewrite T'; apply dh_new; apply NP; lia).
    assert (CG : forall id, cxg t' id = if length (d s) =? id then Some (CV w) else cxg t id).
    { intros id. rewrite T', W. apply cxg_new. }
    assert (DI : forall a, ~ empty a -> did s' a = did s a).
    { intros a NE. unfold s'. rewrite did_number. destruct (Nat.eqb_spec b a); subst; tauto. }
    assert (DC : forall a, In a (ctx s) -> did s' a = did s a).
    { intros a Ia. apply DI. apply (v_ctx _ _ _ _ I a Ia). }
    assert (CX : ctx s' = ctx s) by reflexivity.
    assert (LD : length (d s) <= length (d s')) by (apply len_number_ge).
    assert (PH : forall id cbs, cxg t id = Some (CPh cbs) -> cxg t' id = Some (CPh cbs)).
    { intros id cbs G. rewrite CG. destruct (Nat.eqb_spec (length (d s)) id); auto. subst. exfalso. exact (NP _ (le_n _) _ G). }
    assert (PC : forall a, In a (pa l) -> In a (ctx s)) by (apply (v_pctx _ _ _ _ I)).
    assert (F' : forall x a, nth_error f x = Some a -> nth_error f' x = Some a) by (intros; now apply nth_snoc_old).
    assert (LF : length f = length (dh _ _ t)) by apply (v_len _ _ _ _ I).
    assert (IDL : forall a id, In a (ctx s) -> did s a = Some id -> (length (d s) =? id) = false).
    { intros a id Ia D. destruct (v_num _ _ _ _ I a Ia) as [x [X1 X2]]. apply Nat.eqb_neq. assert (x = id) by congruence. lia. }
    split; [|split].
    - destruct I. constructor; rewrite ?pa_bump; rewrite ?CX; auto.
      + rewrite DH. unfold f'. rewrite !app_length. simpl. lia.
      + intros a Ia. rewrite DC; auto. destruct (v_num0 a Ia) as [id [D1 D2]]. exists id. split; auto. lia.
      + intros a c id Ia Ic. rewrite !DC; auto. eauto.
      + intros a. destruct (empty_dec a); auto. rewrite DI; auto.
      + destruct v_trail0 as [->|]; auto.
      + intros a id Ia Np. rewrite DC; auto. intros D. destruct (v_done0 a id Ia Np D) as [a' [G1 G2]].
        exists a'. split; auto. rewrite CG. erewrite IDL; eauto.
      + intros a id w0 Ia D G. rewrite DC in D; auto. rewrite CG in G. erewrite IDL in G; eauto.
      + intros a' a Fa. apply nth_snoc in Fa. destruct Fa as [Fa|[-> <-]].
        * destruct (v_obj0 a' a Fa) as [o [o' [O1 [O2 O3]]]]. exists o, o'. split; auto. split.
          { rewrite DH. now apply nth_snoc_old. }
          eapply objok_pa; [symmetry; apply pa_bump|]. apply (objok_mono s t f); auto.
        * exists (ONode (KDict 0) []), (DNode (KDict 0) []). split; [exact E|]. split.
          { rewrite DH, LF. apply nth_snoc_new. }
          simpl. repeat split; auto. intros i v w0 Q. destruct i; discriminate.
      + intros id cbs G. rewrite CG in G. destruct (Nat.eqb_spec (length (d s)) id); [congruence|].
        destruct (v_cb0 id cbs G) as [c [B1 [B2 B3]]]. exists c. split; auto. split; [rewrite DC; auto|].
        intros a' i Q. destruct (B3 a' i Q) as [a [Q1 Q2]]. eauto.
      + intros a' a Fa Ne. apply nth_snoc in Fa. destruct Fa as [Fa|[-> <-]]; [|contradiction].
        destruct (v_back0 a' a Fa Ne) as [B1 [B2 B3]]. split; auto. split; auto. intros id D.
        rewrite DC in D; auto. rewrite CG. erewrite IDL; eauto.
      + intros O. destruct (v_once0 O) as [O1 O2].
        assert (NB : did s b = None).
        { destruct (did s b) eqn:D; auto. exfalso. destruct (O2 b E) as [c [j [C1 [C2 C3]]]]; [congruence|].
          destruct l as [|[a i] r]; simpl in A; [tauto|].
          assert (a = c /\ i = j) as [-> ->].
          { apply (O b); auto; [|apply v_ctx0; auto]. apply v_ctx0. apply v_pctx0. now left. }
          specialize (C3 j (or_introl eq_refl)). lia. }
        assert (LD' : length (d s') = S (length (d s))) by (apply len_number_new; auto).
        split.
        * intros id e G. rewrite CG in G. destruct (Nat.eqb_spec (length (d s)) id); [lia|]. apply O1 in G. lia.
        * intros e Ee D. unfold s' in D. rewrite did_number in D. destruct (Nat.eqb_spec b e).
          -- subst e. destruct l as [|[a i] r]; simpl in A; [tauto|]. exists a, i.
             split; [apply v_pctx0; now left|]. split; auto. intros i0 [Q|Q]; [inversion Q; lia|].
             exfalso. destruct v_trail0 as [|T1]; [discriminate|]. apply trail_nodup in T1. simpl in T1.
             inversion T1; subst. apply H2. change a with (fst (a, i0)). now apply in_map.
          -- destruct (O2 e Ee D) as [c [j [C1 [C2 C3]]]]. exists c, j. repeat split; auto.
             intros i0 Q. destruct l as [|[a i] r]; simpl in Q; [contradiction|]. destruct Q as [Q|Q].
             ++ inversion Q; subst. specialize (C3 i (or_introl eq_refl)). lia.
             ++ apply C3. now right.
    - constructor; auto. intros c id cbs _ _ G. exists cbs. auto.
    - rewrite W. simpl. unfold f'. rewrite <- LF. apply nth_snoc_new.
  Qed.

  (** *** Case 2: an object met before *)
  Lemma run_same : forall cbs (x : list (dobj P C)) w,
    (forall a' i, In (a', i) cbs -> exists k ws, nth_error x a' = Some (DNode k ws) /\ nth_error ws i = Some w) ->
    fold_left (run_cb P C w) cbs x = x.
  Proof.
    induction cbs as [|[a' i] cbs IH]; simpl; intros x w F; auto.
    destruct (F a' i (or_introl eq_refl)) as [k [ws [X1 X2]]].
    assert (R : run_cb P C w x (a', i) = x).
    { unfold run_cb. simpl. rewrite X1.
      assert (U : forall A (l : list A) n y, nth_error l n = Some y -> upd l n y = l).
      { induction l as [|z l IHl]; destruct n; simpl; intros y E; try discriminate; [congruence|]. f_equal. auto. }
      rewrite (U _ ws i w X2). now apply U. }
    rewrite R. apply IH. intros a'' j Q. apply F. now right.
  Qed.

  Lemma dst_eta : forall t : dst, {| dh := dh _ _ t; cx := cx _ _ t |} = t.
  Proof. destruct t; reflexivity. Qed.

  Lemma inv_ph : forall s t f l b id, Inv s t f l -> In b (pa l) -> did s b = Some id -> cxg t id = None ->
    Inv s {| dh := dh _ _ t; cx := gset Nat.eqb (cx _ _ t) id (CPh []) |} f l.
  Proof.
    intros s t f l b id I Ib D G.
    set (t' := {| dh := dh _ _ t; cx := gset Nat.eqb (cx _ _ t) id (CPh []) |}).
    assert (CG : forall x, cxg t' x = if id =? x then Some (CPh []) else cxg t x).
    { intros x. unfold cxg, t'. simpl. apply (gget_gset _ Nat.eqb_spec). }
    assert (KEEP : forall x e, cxg t x = Some e -> cxg t' x = Some e).
    { intros x e Gx. rewrite CG. destruct (Nat.eqb_spec id x); auto. congruence. }
    pose proof I as I0. destruct I. constructor; auto.
    - intros a x Ia Np Dx. destruct (v_done0 a x Ia Np Dx) as [a' [Q1 Q2]]. exists a'. auto.
    - intros a x w Ia Dx Gx. rewrite CG in Gx. destruct (Nat.eqb_spec id x); [discriminate|]. eauto.
    - intros a' a Fa. destruct (v_obj0 a' a Fa) as [o [o' [O1 [O2 O3]]]]. exists o, o'. split; auto. split; auto.
      apply (objok_mono s t f); auto.
    - intros x cbs Gx. rewrite CG in Gx. destruct (Nat.eqb_spec id x).
      + inversion Gx; subst. exists b. repeat split; auto. intros a' i [].
      + auto.
    - intros a' a Fa Ne. destruct (v_back0 a' a Fa Ne) as [Q1 [Q2 Q3]]. repeat split; auto.
    - intros O. destruct (v_once0 O) as [O1 O2]. split; auto. intros x e Gx. rewrite CG in Gx.
      destruct (Nat.eqb_spec id x); [|eauto]. subst. destruct (v_num0 b (v_pctx0 b Ib)) as [y [Y1 Y2]]. congruence.
  Qed.

  Lemma visit_known : forall s t f l b id, Inv s t f l -> arrive l b -> In b (ctx s) -> did s b = Some id ->
    exists w t', deserial_single t (HRef id) [] [] = DOk (w, t') /\
      Inv s t' f (bump l) /\ Ext s t f s t' f l /\ resok s t' f l (VR b) w.
  Proof.
    intros s t f l b id I A Ib D. simpl. fold (cxg t id).
    destruct (in_dec Nat.eq_dec b (pa l)) as [Pb|Pb].
    - destruct (cxg t id) as [[w|cbs]|] eqn:G.
      + (* would be a cycle *)
        exfalso. apply (v_open _ _ _ _ I b id w Pb D G).
        destruct l as [|[a i] r]; [contradiction|]. simpl in A. destruct Pb as [<-|Pb]; simpl in *.
        * apply t_step. eapply slot_edge; eauto.
        * destruct (v_trail _ _ _ _ I) as [E|T1]; [discriminate|].
          eapply t_trans; [|apply t_step; eapply slot_edge; exact A].
          simpl in T1. eapply trail_reach; eauto.
      + rewrite run_same.
        * rewrite dst_eta. exists (DPh id), t. split; [reflexivity|].
          split; [now apply inv_bump|]. split; [apply ext_refl|]. simpl. eauto.
        * intros a' i Q. destruct (v_cb _ _ _ _ I id cbs G) as [c [C1 [C2 C3]]].
          assert (c = b) by (eapply (v_inj _ _ _ _ I); eauto; apply (v_pctx _ _ _ _ I); auto). subst c.
          destruct (C3 a' i Q) as [a [Q1 [k [vs [Q2 Q3]]]]].
          destruct (v_obj _ _ _ _ I a' a Q1) as [o [o' [O1 [O2 O3]]]].
          rewrite Q2 in O1. inversion O1; subst o. destruct o' as [c|k' ws]; [contradiction|].
          destruct O3 as [-> [L O3]].
          destruct (nth_error ws i) as [w|] eqn:W.
          2:{ apply nth_error_None in W. assert (i < length vs) by (apply nth_error_Some; congruence). lia. }
          exists k', ws. split; auto. rewrite W. f_equal. specialize (O3 i _ _ Q3 W).
          destruct w as [p|b'|id']; simpl in O3; [contradiction| |destruct O3 as [O3 _]; congruence].
          exfalso. destruct (v_back _ _ _ _ I b' b O3) as [_ [N _]]; auto. apply (v_ctx _ _ _ _ I b Ib).
      + eexists. eexists. split; [reflexivity|]. split; [|split].
        * apply inv_bump. eapply inv_ph; eauto.
        * constructor; auto. intros c x cbs Ic Dc Gx. exists cbs. unfold cxg. simpl.
          rewrite (gget_gset _ Nat.eqb_spec). destruct (Nat.eqb_spec id x); auto. congruence.
        * simpl. repeat split; auto. exists []. unfold cxg. simpl.
          rewrite (gget_gset _ Nat.eqb_spec), Nat.eqb_refl. reflexivity.
    - destruct (v_done _ _ _ _ I b id Ib Pb D) as [b' [G1 G2]]. rewrite G1.
      exists (DR b'), t. split; [reflexivity|]. split; [now apply inv_bump|]. split; [apply ext_refl|]. exact G2.
  Qed.

  (** *** Case 3: a new object: opening it *)
  Lemma inv_open : forall s t f l b, Inv s t f l -> arrive l b -> ~ In b (ctx s) -> ~ empty b ->
    let s1 := snd (number s b true) in
    Inv s1 t f ((b, 0) :: l) /\ did s1 b = Some (length (d s)) /\ In b (ctx s1) /\ Ext s t f s1 t f l.
  Proof.
    intros s t f l b I A Nb NE s1.
    assert (ND : did s b = None).
    { destruct (did s b) eqn:D; auto. exfalso. destruct (v_dom _ _ _ _ I b); [congruence|auto|auto]. }
    assert (LD : length (d s1) = S (length (d s))) by (apply len_number_new; auto).
    assert (DB : did s1 b = Some (length (d s))) by (unfold s1; rewrite did_number, Nat.eqb_refl; reflexivity).
    assert (DO : forall a, a <> b -> did s1 a = did s a).
    { intros a N. unfold s1. rewrite did_number. destruct (Nat.eqb_spec b a); congruence. }
    assert (CX : ctx s1 = b :: ctx s) by reflexivity.
    assert (DC : forall a, In a (ctx s) -> did s1 a = did s a) by (intros a Ia; apply DO; congruence).
    assert (FB : from b) by (eapply arrive_from; eauto).
    assert (NP : ~ In b (pa l)) by (intros Q; apply Nb; apply (v_pctx _ _ _ _ I); auto).
    split; [|split; [exact DB|split; [rewrite CX; now left|]]].
    2:{ constructor; auto; [intros; rewrite CX; now right|]. intros c id cbs _ _ G. eauto. }
    pose proof I as I0. destruct I. constructor; auto.
    - intros a Ia. rewrite CX in Ia. destruct Ia as [<-|Ia].
      + exists (length (d s)). split; auto. lia.
      + rewrite DC; auto. destruct (v_num0 a Ia) as [id [D1 D2]]. exists id. split; auto. lia.
    - intros a c id Ia Ic. rewrite CX in Ia, Ic. destruct Ia as [<-|Ia], Ic as [<-|Ic]; auto.
      + rewrite DB, (DC c); auto. intros Q1 Q2. inversion Q1; subst. destruct (v_num0 c Ic) as [x [X1 X2]].
        assert (x = length (d s)) by congruence. lia.
      + rewrite DB, (DC a); auto. intros Q1 Q2. inversion Q2; subst. destruct (v_num0 a Ia) as [x [X1 X2]].
        assert (x = length (d s)) by congruence. lia.
      + rewrite !DC; auto. eauto.
    - intros a D. rewrite CX. destruct (Nat.eq_dec a b) as [->|N]; [left; now left|].
      rewrite DO in D; auto. destruct (v_dom0 a D); auto. left. now right.
    - intros a Ia. rewrite CX in Ia. destruct Ia as [<-|Ia]; auto.
    - right. destruct l as [|[a i] r]; simpl in *.
      + destruct A as [-> _]. constructor.
      + destruct v_trail0 as [E|T1]; [discriminate|]. constructor; auto. eapply slot_edge; eauto.
    - intros a Ia. rewrite CX. destruct Ia as [<-|Ia]; [now left|]. right. auto.
    - intros a id Ia Np D. rewrite CX in Ia. destruct Ia as [<-|Ia]; [exfalso; apply Np; now left|].
      rewrite DC in D; auto. apply (v_done0 a id); auto. intros Q. apply Np. now right.
    - intros a id w Ia D G. destruct Ia as [<-|Ia].
      + simpl in *. rewrite DB in D. inversion D; subst.
        destruct MODE as [AC|ON]; [now apply AC|]. exfalso. destruct (v_once0 ON) as [O1 _].
        specialize (O1 _ _ G). lia.
      + rewrite DC in D; auto. eauto.
    - intros a' a Fa. destruct (v_obj0 a' a Fa) as [o [o' [O1 [O2 O3]]]]. exists o, o'. split; auto. split; auto.
      destruct o as [c|k vs], o' as [c'|k' ws]; simpl in *; auto. destruct O3 as [S1 [S2 S3]].
      repeat split; auto. intros i v w Q1 Q2. specialize (S3 i v w Q1 Q2).
      destruct v as [p|c], w as [q|c'|id]; simpl in *; auto.
      destruct S3 as [R1 [R2 R3]]. repeat split; auto. rewrite DC; auto.
    - intros id cbs G. destruct (v_cb0 id cbs G) as [c [C1 [C2 C3]]]. exists c. split; [now right|].
      split; auto. rewrite DC; auto.
    - intros a' a Fa Ne. destruct (v_back0 a' a Fa Ne) as [Q1 [Q2 Q3]]. rewrite CX. split; [now right|].
      split; [intros [Q|Q]; [simpl in Q; subst a|]; auto|]. intros id D. rewrite DC in D; auto.
    - intros O. destruct (v_once0 O) as [O1 O2]. split.
      + intros id e G. apply O1 in G. lia.
      + intros e E D. rewrite DO in D by congruence. destruct (O2 e E D) as [c [j [C1 [C2 C3]]]].
        exists c, j. rewrite CX. split; [now right|]. split; auto. intros i [Q|Q]; [inversion Q; congruence|auto].
  Qed.

  (** *** Closing it *)
  Lemma register_spec : forall (zs : list dval) c a i0,
    (forall id, In (DPh id) zs -> exists l, gget Nat.eqb c id = Some (CPh l)) ->
    forall id, match gget Nat.eqb c id with
      | Some (CPh l) => exists l', gget Nat.eqb (register P c a i0 zs) id = Some (CPh (l ++ l')) /\
          forall x, In x l' <-> exists j, nth_error zs j = Some (DPh id) /\ x = (a, i0 + j)
      | e => gget Nat.eqb (register P c a i0 zs) id = e
      end.
  Proof.
    assert (NX : forall (z : dval) zs id, z <> DPh id ->
      forall a i0 (x : nat * nat), (exists j, nth_error zs j = Some (DPh id) /\ x = (a, S i0 + j)) <->
                (exists j, nth_error (z :: zs) j = Some (DPh id) /\ x = (a, i0 + j))).
    { intros z zs id N a i0 x. split.
      - intros [j [J1 J2]]. exists (S j). split; auto. rewrite J2. f_equal. lia.
      - intros [[|j] [J1 J2]]; [simpl in J1; exfalso; apply N; congruence|].
        exists j. split; auto. rewrite J2. f_equal. lia. }
    induction zs as [|z zs IH]; intros c a i0 F id.
    - simpl. destruct (gget Nat.eqb c id) as [[w|l]|]; auto. exists []. rewrite app_nil_r. split; auto.
      intros x. split; [intros []|]. intros [j [J _]]. destruct j; discriminate.
    - destruct z as [p|b'|i1]; simpl.
      + specialize (IH c a (S i0) (fun i Q => F i (or_intror Q)) id).
        destruct (gget Nat.eqb c id) as [[w|l]|]; auto. destruct IH as [l' [L1 L2]]. exists l'. split; auto.
        intros x. rewrite L2. apply NX. discriminate.
      + specialize (IH c a (S i0) (fun i Q => F i (or_intror Q)) id).
        destruct (gget Nat.eqb c id) as [[w|l]|]; auto. destruct IH as [l' [L1 L2]]. exists l'. split; auto.
        intros x. rewrite L2. apply NX. discriminate.
      + destruct (F i1 (or_introl eq_refl)) as [l1 G1]. rewrite G1.
        set (c1 := gset Nat.eqb c i1 (CPh (l1 ++ [(a, i0)]))).
        assert (C1 : forall x, gget Nat.eqb c1 x = if i1 =? x then Some (CPh (l1 ++ [(a, i0)])) else gget Nat.eqb c x).
        { intros x. apply (gget_gset _ Nat.eqb_spec). }
        assert (F1 : forall i, In (DPh i) zs -> exists l, gget Nat.eqb c1 i = Some (CPh l)).
        { intros i Q. rewrite C1. destruct (i1 =? i); eauto. apply F. now right. }
        specialize (IH c1 a (S i0) F1 id). rewrite C1 in IH.
        destruct (Nat.eqb_spec i1 id) as [->|N].
        * rewrite G1. destruct IH as [l' [L1 L2]]. exists ((a, i0) :: l'). rewrite <- app_assoc in L1. split; auto.
          intros x. simpl. split.
          -- intros [<-|Q]; [exists 0; rewrite Nat.add_0_r; auto|]. apply L2 in Q. destruct Q as [j [J1 J2]].
             exists (S j). split; auto. rewrite J2. f_equal. lia.
          -- intros [[|j] [J1 J2]]; [left; rewrite J2, Nat.add_0_r; auto|]. right. apply L2.
             exists j. split; auto. rewrite J2. f_equal. lia.
        * destruct (gget Nat.eqb c id) as [[w|l]|]; auto. destruct IH as [l' [L1 L2]]. exists l'. split; auto.
          intros x. rewrite L2. apply NX. congruence.
  Qed.

  Definition memp (x i : nat) (cbs : list (nat * nat)) : bool :=
    existsb (fun cb => (fst cb =? x) && (snd cb =? i)) cbs.
  Lemma memp_iff : forall x i cbs, memp x i cbs = true <-> In (x, i) cbs.
  Proof.
    intros x i cbs. unfold memp. rewrite existsb_exists. split.
    - intros [[a b] [I E]]. simpl in E. apply andb_true_iff in E. destruct E as [E1 E2].
      apply Nat.eqb_eq in E1, E2. now subst.
    - intros I. exists (x, i). split; auto. simpl. now rewrite !Nat.eqb_refl.
  Qed.

  Lemma nth_upd : forall A (l : list A) i y j, nth_error (upd l i y) j =
    if i =? j then (if j <? length l then Some y else None) else nth_error l j.
  Proof.
    induction l as [|z l IH]; intros i y j; simpl.
    - destruct (i =? j) eqn:E; destruct j; auto.
    - destruct i, j; simpl; auto. rewrite IH. destruct (i =? j); auto.
  Qed.
  Lemma upd_length : forall A (l : list A) i y, length (upd l i y) = length l.
  Proof. induction l as [|z l IH]; destruct i; simpl; intros; auto. Qed.

  Lemma run_cbs_spec : forall (w0 : dval) cbs x,
    length (fold_left (run_cb P C w0) cbs x) = length x /\
    forall a', match nth_error x a' with
      | Some (DNode k ws) => exists ws', nth_error (fold_left (run_cb P C w0) cbs x) a' = Some (DNode k ws') /\
          length ws' = length ws /\
          forall i w, nth_error ws i = Some w -> nth_error ws' i = Some (if memp a' i cbs then w0 else w)
      | e => nth_error (fold_left (run_cb P C w0) cbs x) a' = e
      end.
  Proof.
    induction cbs as [|[b i] cbs IH]; intros x; simpl.
    - split; auto. intros a'. destruct (nth_error x a') as [[c|k ws]|] eqn:E; auto.
      exists ws. repeat split; auto.
    - destruct (IH (run_cb P C w0 x (b, i))) as [IL IG].
      assert (RL : length (run_cb P C w0 x (b, i)) = length x).
      { unfold run_cb. simpl. destruct (nth_error x b) as [[c|k ws]|]; auto. apply upd_length. }
      split; [congruence|]. intros a'. specialize (IG a').
      unfold run_cb at 1 in IG. simpl in IG.
      destruct (nth_error x b) as [[c|k ws]|] eqn:E.
      + destruct (nth_error x a') as [[c'|k' ws']|] eqn:E'; auto.
        destruct IG as [ws2 [W1 [W2 W3]]]. exists ws2. repeat split; auto.
        intros j w Q. rewrite (W3 j w Q). destruct (Nat.eqb_spec b a'); simpl; auto. subst. congruence.
      + rewrite nth_upd in IG. destruct (Nat.eqb_spec b a').
        * subst a'. assert (LT : b < length x) by (apply nth_error_Some; congruence).
          apply Nat.ltb_lt in LT. rewrite LT in IG. rewrite E.
          destruct IG as [ws2 [W1 [W2 W3]]]. exists ws2. rewrite upd_length in W2. repeat split; auto.
          intros j w Q. simpl. specialize (W3 j). rewrite nth_upd in W3.
          destruct (Nat.eqb_spec i j).
          -- subst j. assert (LT2 : i < length ws) by (apply nth_error_Some; congruence).
             apply Nat.ltb_lt in LT2. rewrite LT2 in W3. rewrite (W3 w0 eq_refl). simpl. now destruct (memp b i cbs).
          -- rewrite (W3 w Q). simpl. reflexivity.
        * destruct (nth_error x a') as [[c'|k' ws']|] eqn:E'; auto.
      + destruct (nth_error x a') as [[c'|k' ws']|] eqn:E'; auto.
        destruct IG as [ws2 [W1 [W2 W3]]]. exists ws2. repeat split; auto.
        intros j w Q. rewrite (W3 j w Q). destruct (Nat.eqb_spec b a'); simpl; auto. subst. congruence.
  Qed.

  Lemma objok_grow : forall s t f t' f' l a' o o',
    (forall id cbs, cxg t id = Some (CPh cbs) -> exists cbs', cxg t' id = Some (CPh cbs') /\ incl cbs cbs') ->
    (forall x a, nth_error f x = Some a -> nth_error f' x = Some a) ->
    objok s t f l a' o o' -> objok s t' f' l a' o o'.
  Proof.
    intros s t f t' f' l a' o o' G F S. destruct o as [c|k vs], o' as [c'|k' ws]; simpl in *; auto.
    destruct S as [S1 [S2 S3]]. repeat split; auto. intros i v w Q1 Q2. specialize (S3 i v w Q1 Q2).
    destruct v as [p|b], w as [q|b'|id]; simpl in *; auto.
    destruct S3 as [R1 [R2 [cbs [R3 R4]]]]. repeat split; auto. destruct (G _ _ R3) as [c2 [G1 G2]].
    exists c2. auto.
  Qed.
  Lemma resok_pa : forall s t f l l' v w, pa l = pa l' -> resok s t f l v w -> resok s t f l' v w.
  Proof. intros s t f l l' v w E. unfold resok. rewrite E. auto. Qed.

  Lemma forall2_nth : forall A B0 (R : A -> B0 -> Prop) l1 l2, Forall2 R l1 l2 ->
    forall i y, nth_error l2 i = Some y -> exists x, nth_error l1 i = Some x /\ R x y.
  Proof.
    induction 1 as [|x y l1 l2 H1 H2 IH]; intros i z E; destruct i; simpl in *; try discriminate.
    - inversion E; subst. eauto.
    - eauto.
  Qed.
  Lemma forall2_len : forall A B0 (R : A -> B0 -> Prop) l1 l2, Forall2 R l1 l2 -> length l1 = length l2.
  Proof. induction 1; simpl; auto. Qed.

  (** The object made for [o]. *)
  Definition made (s : sst) (t : dst) (f : list nat) (l : path) (o : obj P C) (o' : dobj P C) (zs : list dval) : Prop :=
    match o, o' with
    | OLeaf c, DLeaf c' => c = c' /\ zs = []
    | ONode k vs, DNode k' ws => k = k' /\ ws = zs /\ Forall2 (resok s t f l) vs zs
    | _, _ => False
    end.

  Lemma inv_close : forall s t f b n l id o o' zs,
    Inv s t f ((b, n) :: l) -> did s b = Some id -> nth_error h b = Some o -> ~ empty b ->
    made s t f ((b, n) :: l) o o' zs ->
    let t1 := {| dh := dh _ _ t; cx := register P (cx _ _ t) (length (dh _ _ t)) 0 zs |} in
    let t' := snd (new_obj P C t1 id o') in
    let f' := f ++ [b] in
    Inv s t' f' l /\ Ext s t f s t' f' l /\ fst (new_obj P C t1 id o') = DR (length f).
  Proof.
    intros s t f b n l id o o' zs I DB HB NE M t1 t' f'.
    set (NA := length (dh _ _ t)).
    assert (LF : length f = NA) by apply (v_len _ _ _ _ I).
    assert (PCX : forall c, In c (pa ((b, n) :: l)) -> In c (ctx s)) by apply (v_pctx _ _ _ _ I).
    assert (BCX : In b (ctx s)) by (apply PCX; now left).
    assert (ZS : forall j id', nth_error zs j = Some (DPh id') -> exists c, slot b j (VR c) /\ did s c = Some id' /\
               In c (pa ((b, n) :: l)) /\ exists cbs, cxg t id' = Some (CPh cbs)).
    { intros j id' Z. destruct o as [c|k vs], o' as [c'|k' ws]; simpl in M; try contradiction.
      - destruct M as [_ ->]. destruct j; discriminate.
      - destruct M as [-> [-> F2]]. destruct (forall2_nth _ _ _ _ _ F2 j _ Z) as [v [V1 V2]].
        destruct v as [p|c]; simpl in V2; [contradiction|]. exists c. destruct V2 as [V2 [V3 V4]].
        repeat split; auto. exists k', vs. auto. }
    assert (FZ : forall id', In (DPh id') zs -> exists c, gget Nat.eqb (cx _ _ t) id' = Some (CPh c)).
    { intros id' Q. apply In_nth_error in Q. destruct Q as [j Q]. destruct (ZS j id' Q) as [c [_ [_ [_ E]]]]. exact E. }
    pose proof (fun x => register_spec zs (cx _ _ t) NA 0 FZ x) as REG.
    assert (REG1 : forall x, match cxg t x with
      | Some (CPh c) => exists c', cxg t1 x = Some (CPh (c ++ c')) /\
          forall y, In y c' <-> exists j, nth_error zs j = Some (DPh x) /\ y = (NA, j)
      | e => cxg t1 x = e end).
    { intros x. specialize (REG x). unfold cxg, t1. simpl. fold NA.
      destruct (gget Nat.eqb (cx _ _ t) x) as [[w|c]|]; auto. }
    clear REG FZ.
    assert (CG : forall x, cxg t' x = if id =? x then Some (CV (DR NA)) else cxg t1 x).
    { intros x. unfold t'. rewrite cxg_new. reflexivity. }
    assert (IDN : forall c x, In c (ctx s) -> c <> b -> did s c = Some x -> (id =? x) = false).
    { intros c x Ic N D. apply Nat.eqb_neq. intros ->. apply N. eapply (v_inj _ _ _ _ I); eauto. }
    assert (GROW : forall x c, cxg t x = Some (CPh c) -> exists c', cxg t1 x = Some (CPh c') /\ incl c c').
    { intros x c G. specialize (REG1 x). rewrite G in REG1. destruct REG1 as [c' [R1 _]]. exists (c ++ c').
      split; auto. intros y Y. apply in_or_app. now left. }
    assert (BACK1 : forall x w, cxg t1 x = Some (CV w) -> cxg t x = Some (CV w)).
    { intros x w G. specialize (REG1 x). destruct (cxg t x) as [[w'|c]|]; try congruence.
      destruct REG1 as [c' [R _]]. congruence. }
    assert (KEEP1 : forall x w, cxg t x = Some (CV w) -> cxg t1 x = Some (CV w)).
    { intros x w G. specialize (REG1 x). now rewrite G in REG1. }
    assert (FN : nth_error f' NA = Some b) by (unfold f'; rewrite <- LF; apply nth_snoc_new).
    assert (FO : forall x a, nth_error f x = Some a -> nth_error f' x = Some a) by (intros; now apply nth_snoc_old).
    (* callbacks that are run *)
    set (cbs0 := match cxg t1 id with Some (CPh c) => c | _ => [] end).
    set (h0 := dh _ _ t ++ [o']).
    assert (DH : dh _ _ t' = fold_left (run_cb P C (DR NA)) cbs0 h0).
    { unfold t', new_obj, set_context. simpl. unfold cbs0, cxg, t1. simpl. fold NA h0.
      destruct (gget Nat.eqb _ id) as [[w|c]|]; reflexivity. }
    assert (CBALL : forall x c, cxg t1 x = Some (CPh c) -> exists e, In e (pa ((b, n) :: l)) /\ did s e = Some x /\
              forall a' i, In (a', i) c -> exists a, nth_error f' a' = Some a /\ slot a i (VR e)).
    { intros x c G. pose proof (REG1 x) as R. destruct (cxg t x) as [[w|c0]|] eqn:G0; [congruence| |congruence].
      destruct R as [c' [R1 R2]]. assert (c = c0 ++ c') by congruence. subst c.
      destruct (v_cb _ _ _ _ I x c0 G0) as [e [E1 [E2 E3]]]. exists e. split; auto. split; auto.
      intros a' i Q. apply in_app_or in Q. destruct Q as [Q|Q].
      - destruct (E3 a' i Q) as [a [A1 A2]]. eauto.
      - apply R2 in Q. destruct Q as [j [J1 J2]]. inversion J2; subst.
        destruct (ZS j x J1) as [c1 [S1 [S2 [S3 _]]]]. assert (c1 = e) by (eapply (v_inj _ _ _ _ I); eauto). subst c1.
        eauto. }
    assert (CBS : forall a' i, In (a', i) cbs0 -> exists a, nth_error f' a' = Some a /\ slot a i (VR b)).
    { intros a' i Q. unfold cbs0 in Q. destruct (cxg t1 id) as [[w|c]|] eqn:G; try contradiction.
      destruct (CBALL id c G) as [e [E1 [E2 E3]]]. assert (e = b) by (eapply (v_inj _ _ _ _ I); eauto). subst e. auto. }
    (* objects before the callbacks *)
    assert (OBJ1 : forall a' a, nth_error f' a' = Some a -> exists q q', nth_error h a = Some q /\
              nth_error h0 a' = Some q' /\ objok s t1 f' ((b, n) :: l) a' q q').
    { intros a' a Fa. apply nth_snoc in Fa. destruct Fa as [Fa|[-> <-]].
      - destruct (v_obj _ _ _ _ I a' a Fa) as [q [q' [O1 [O2 O3]]]]. exists q, q'. split; auto. split.
        { unfold h0. now apply nth_snoc_old. }
        apply (objok_grow s t f); auto.
      - exists o, o'. split; auto. split; [rewrite LF; unfold h0; apply nth_snoc_new|].
        destruct o as [c|k vs], o' as [c'|k' ws]; simpl in M; try contradiction.
        + simpl. tauto.
        + destruct M as [-> [-> F2]]. simpl. split; auto. split; [eapply forall2_len; eauto|].
          intros i v w V W. destruct (forall2_nth _ _ _ _ _ F2 i w W) as [v' [V1 V2]].
          assert (v' = v) by congruence. subst v'.
          destruct v as [p|c], w as [q|c'|id']; simpl in *; auto.
          destruct V2 as [R1 [R2 [cbs R3]]]. split; auto. split; auto.
          specialize (REG1 id'). rewrite R3 in REG1. destruct REG1 as [c' [G1 G2]]. exists (cbs ++ c').
          split; auto. apply in_or_app. right. apply G2. exists i. rewrite LF. auto. }
    destruct (run_cbs_spec (DR NA) cbs0 h0) as [RL RS].
    assert (NBL : ~ In b (pa l)).
    { destruct (v_trail _ _ _ _ I) as [E|T1]; [discriminate|]. apply trail_nodup in T1. simpl in T1. now inversion T1. }
    split; [|split; [|now rewrite LF]].
    - pose proof I as I0. destruct I. constructor; auto.
      + rewrite DH, RL. unfold f', h0. rewrite !app_length. simpl. lia.
      + destruct v_trail0 as [E|T1]; [discriminate|]. simpl in T1. inversion T1; subst; [left|right; auto].
        destruct l; [auto|discriminate].
      + intros a Ia. apply PCX. now right.
      + intros a x Ia Np D. destruct (Nat.eq_dec a b) as [->|N].
        * exists NA. rewrite CG. assert (x = id) by congruence. subst x. now rewrite Nat.eqb_refl.
        * destruct (v_done0 a x Ia) as [a' [G1 G2]]; auto.
          { intros [Q|Q]; [simpl in Q; congruence|auto]. }
          exists a'. split; auto. rewrite CG, (IDN a x); auto.
      + intros a x w Ia D G. assert (a <> b) by congruence. rewrite CG, (IDN a x) in G; auto.
        * apply (v_open0 a x w); auto. now right.
        * apply PCX. now right.
      + intros a' a Fa. destruct (OBJ1 a' a Fa) as [q [q' [O1 [O2 O3]]]]. specialize (RS a'). rewrite O2 in RS.
        destruct q as [c|k vs], q' as [c'|k' ws]; simpl in O3; try contradiction.
        * exists (OLeaf c), (DLeaf c'). rewrite DH. auto.
        * destruct RS as [ws' [W1 [W2 W3]]]. exists (ONode k vs), (DNode k' ws'). rewrite DH. split; auto. split; auto.
          destruct O3 as [-> [L3 O3]]. simpl. split; auto. split; [congruence|].
          intros i v w V W. destruct (nth_error ws i) as [w1|] eqn:Q1.
          2:{ apply nth_error_None in Q1. assert (i < length ws') by (apply nth_error_Some; congruence). lia. }
          specialize (W3 i w1 Q1). rewrite W in W3. specialize (O3 i v w1 V Q1).
          destruct (memp a' i cbs0) eqn:MP.
          -- inversion W3; subst w. apply memp_iff in MP. destruct (CBS a' i MP) as [a2 [A1 A2]].
             assert (a2 = a) by congruence. subst a2. destruct A2 as [k2 [vs2 [A3 A4]]].
             assert (v = VR b) by congruence. subst v. simpl. exact FN.
          -- inversion W3; subst w. destruct v as [p|c], w1 as [q|c'|id']; simpl in *; auto.
             destruct O3 as [R1 [R2 [cbs [R3 R4]]]].
             assert (CB : c <> b).
             { intros ->. assert (id' = id) by congruence. subst id'. unfold cbs0 in MP. rewrite R3 in MP.
               assert (memp a' i cbs = true) by now apply memp_iff. congruence. }
             split; auto. split; [destruct R2 as [R2|R2]; [congruence|auto]|].
             exists cbs. rewrite CG, (IDN c id'); auto.
      + intros x c G. rewrite CG in G. destruct (Nat.eqb_spec id x); [discriminate|].
        destruct (CBALL x c G) as [e [E1 [E2 E3]]]. exists e. split; [|auto].
        destruct E1 as [E1|E1]; [simpl in E1; congruence|auto].
      + intros a' a Fa Ne. apply nth_snoc in Fa. destruct Fa as [Fa|[-> <-]].
        * destruct (v_back0 a' a Fa Ne) as [Q1 [Q2 Q3]]. split; auto. split; [intros Q; apply Q2; now right|].
          intros x D. assert (a <> b) by (intros ->; apply Q2; now left). rewrite CG, (IDN a x); auto.
        * split; auto. split; auto. intros x D. assert (x = id) by congruence. subst x.
          rewrite CG, Nat.eqb_refl, LF. reflexivity.
      + intros O. destruct (v_once0 O) as [O1 O2]. split.
        * intros x e G. rewrite CG in G. destruct (Nat.eqb_spec id x) as [<-|N].
          -- destruct (v_num0 b BCX) as [y [Y1 Y2]]. congruence.
          -- specialize (REG1 x). destruct (cxg t x) as [[w|c]|] eqn:G0; [eauto|eauto|congruence].
        * intros e Ee D. destruct (O2 e Ee D) as [c [j [C1 [C2 C3]]]]. exists c, j. repeat split; auto.
          intros i Q. apply C3. now right.
    - constructor; auto. intros c x cbs Ic D G. assert (c <> b) by congruence.
      rewrite CG, (IDN c x); auto; [|apply PCX; now right].
      destruct (GROW x cbs G) as [c' [G1 _]]. eauto.
  Qed.

  (** *** Totality of the serializer *)
  Definition good (s : sst) : Prop := NoDup (ctx s) /\ forall x, In x (ctx s) -> x < length h.
  Lemma good_len : forall s, good s -> length (ctx s) <= length h.
  Proof.
    intros s [N R]. rewrite <- (seq_length (length h) 0). apply NoDup_incl_length; auto.
    intros x I. apply in_seq. specialize (R x I). lia.
  Qed.
  Lemma in_refs : forall (vs : list val) b, In b (refs P vs) -> exists i, nth_error vs i = Some (VR b).
  Proof.
    induction vs as [|v vs IH]; simpl; intros b I; [contradiction|]. apply in_app_or in I. destruct I as [I|I].
    - destruct v as [p|a]; [contradiction|]. destruct I as [->|[]]. now exists 0.
    - destruct (IH b I) as [i E]. now exists (S i).
  Qed.

  Lemma ser_total : forall n s a, good s -> from a -> length h - length (ctx s) < n ->
    exists t s' bs, ser n h s a = Some (t, s', bs) /\ good s' /\ length (ctx s) <= length (ctx s').
  Proof.
    induction n as [|n IH]; intros s a G F L; [lia|].
    assert (AL : a < length h).
    { destruct CL as [C1 C2]. destruct F as [->|F]; auto.
      apply clos_trans_tn1 in F. destruct F as [y E|y z E F]; [apply (C2 root); [now left|auto]|].
      apply (C2 y); auto. right. now apply clos_tn1_trans. }
    destruct (nth_error h a) as [o|] eqn:E; [|apply nth_error_None in E; lia].
    simpl. destruct (empty_dec a) as [EM|NE].
    - rewrite ss_empty; auto. eexists. eexists. eexists. split; [reflexivity|]. split; auto.
    - rewrite (ss_other s a o); auto. destruct (known s a) eqn:K.
      + eexists. eexists. eexists. split; [reflexivity|]. auto.
      + assert (NI : ~ In a (ctx s)) by (intros Q; apply known_iff in Q; congruence).
        assert (G1 : good (snd (number s a true))).
        { destruct G as [G1 G2]. split; simpl; [now constructor|]. intros x [<-|Q]; auto. }
        destruct o as [c|k vs].
        * eexists. eexists. eexists. split; [reflexivity|]. split; auto. simpl. lia.
        * pose proof (good_len _ G1) as GL. simpl in GL.
          assert (SUB : forall l s1, good s1 -> S (length (ctx s)) <= length (ctx s1) ->
             (forall b, In b l -> from b) ->
             exists ts s2 bs, sers (ser n h) s1 l = Some (ts, s2, bs) /\ good s2 /\ S (length (ctx s)) <= length (ctx s2)).
          { induction l as [|b l IL]; intros s1 Gs Ls Fs; simpl.
            - eexists. eexists. eexists. split; [reflexivity|]. auto.
            - destruct (IH s1 b Gs (Fs b (or_introl eq_refl))) as [t1 [s2 [bs1 [E1 [G2 L2]]]]]; [lia|].
              rewrite E1. destruct (IL s2 G2) as [ts [s3 [bs2 [E2 [G3 L3]]]]]; [lia|intros; apply Fs; now right|].
              rewrite E2. eexists. eexists. eexists. split; [reflexivity|]. auto. }
          destruct (SUB (refs P vs) (snd (number s a true)) G1) as [ts [s2 [bs [E1 [G2 L2]]]]].
          { simpl. lia. }
          { intros b Q. apply in_refs in Q. destruct Q as [i Q]. eapply from_edge; [exact F|]. exists i, k, vs. auto. }
          rewrite E1. eexists. eexists. eexists. split; [reflexivity|]. split; auto. lia.
  Qed.

  (** *** Everything together *)
  Variable bufs : list B.

  Definition visit (n : nat) : Prop :=
    forall s b tr s' bs, ser n h s b = Some (tr, s', bs) ->
    forall l t f pos rest, Inv s t f l -> arrive l b -> skipn pos bufs = bs ++ rest ->
    exists w t' f', des bufs t pos tr = DOk (w, t', pos + length bs) /\
      Inv s' t' f' (bump l) /\ Ext s t f s' t' f' l /\ resok s' t' f' l (VR b) w.

  Lemma slots_ok : forall n, visit n -> forall b k l post s ts s' bs, sers (ser n h) s (refs P post) = Some (ts, s', bs) ->
    forall pre t f pos rest, nth_error h b = Some (ONode k (pre ++ post)) ->
    Inv s t f ((b, length pre) :: l) -> skipn pos bufs = bs ++ rest ->
    exists ws t' f' zs, dess bufs (des bufs) t pos ts = DOk (ws, t', pos + length bs) /\
      fill P (map (inline_of P) post) ws = Some zs /\
      Inv s' t' f' ((b, length (pre ++ post)) :: l) /\
      Ext s t f s' t' f' ((b, length pre) :: l) /\
      Forall2 (resok s' t' f' ((b, length (pre ++ post)) :: l)) post zs.
  Proof.
    intros n V b k l. induction post as [|v post IH]; intros s ts s' bs E pre t f pos rest HB I SK.
    - simpl in E. inversion E; subst. exists [], t, f, []. simpl. rewrite app_nil_r, Nat.add_0_r.
      split; [reflexivity|]. split; [reflexivity|]. split; [exact I|]. split; [apply ext_refl|constructor].
    - assert (LP : length (pre ++ [v]) = S (length pre)) by (rewrite app_length; simpl; lia).
      assert (HB' : nth_error h b = Some (ONode k ((pre ++ [v]) ++ post))) by (rewrite <- app_assoc; exact HB).
      assert (AE : (pre ++ [v]) ++ post = pre ++ v :: post) by (rewrite <- app_assoc; reflexivity).
      destruct v as [p|c].
      + simpl in E. destruct (IH s ts s' bs E (pre ++ [VP p]) t f pos rest HB') as [ws [t' [f' [zs [D [FI [I' [X R]]]]]]]]; auto.
        { rewrite LP. apply (inv_bump _ _ _ _ I). }
        exists ws, t', f', (DP p :: zs). rewrite AE in *. split; auto. split; [simpl; now rewrite FI|].
        split; auto. split; auto.
        * destruct X. constructor; auto.
        * constructor; auto. simpl. reflexivity.
      + simpl in E. destruct (ser n h s c) as [[[t1 s1] bs1]|] eqn:E1; [|discriminate].
        destruct (sers (ser n h) s1 (refs P post)) as [[[ts2 s2] bs2]|] eqn:E2; [|discriminate].
        inversion E; subst. clear E. rewrite <- app_assoc in SK.
        assert (AR : arrive ((b, length pre) :: l) c).
        { simpl. exists k, (pre ++ VR c :: post). split; auto.
          rewrite nth_error_app2, Nat.sub_diag; auto. }
        destruct (V s c t1 s1 bs1 E1 _ t f pos _ I AR SK) as [w [t2 [f2 [D1 [I1 [X1 R1]]]]]].
        assert (SK2 : skipn (pos + length bs1) bufs = bs2 ++ rest).
        { rewrite <- skipn_skipn, SK, skipn_app, skipn_all, Nat.sub_diag. reflexivity. }
        simpl in I1. rewrite <- LP in I1.
        destruct (IH s1 ts2 s' bs2 E2 (pre ++ [VR c]) t2 f2 _ rest HB' I1 SK2) as [ws [t' [f' [zs [D [FI [I' [X R]]]]]]]].
        exists (w :: ws), t', f', (w :: zs). rewrite AE in *. rewrite app_length. split.
        { simpl. rewrite D1, D. rewrite Nat.add_assoc. reflexivity. }
        split; [simpl; now rewrite FI|]. split; auto.
        assert (PE : pa ((b, length (pre ++ [VR c])) :: l) = pa ((b, length pre) :: l)) by reflexivity.
        assert (X' : Ext s1 t2 f2 s' t' f' ((b, length pre) :: l)) by (destruct X; constructor; auto).
        split.
        * eapply ext_trans; eauto. apply (v_pctx _ _ _ _ I).
        * constructor; auto. eapply resok_pa with (l := (b, length pre) :: l); [reflexivity|].
          eapply resok_ext; [| exact X' |exact R1]. intros a Q. apply (x_ctx _ _ _ _ _ _ _ X1). apply (v_pctx _ _ _ _ I); auto.
  Qed.

  Lemma node_des : forall t id k zs, (forall i, frozen k (length zs) i -> forall x, nth_error zs i <> Some (DPh x)) ->
    deserial_node P C t id k zs =
      DOk (new_obj P C {| dh := dh _ _ t; cx := register P (cx _ _ t) (length (dh _ _ t)) 0 zs |} id (DNode k zs)).
  Proof.
    intros t id k zs F. unfold deserial_node.
    assert (X : forall z : dval, is_ph P z = true -> exists x, z = DPh x) by (intros [p|b'|x]; simpl; try discriminate; eauto).
    destruct k as [ty|ty|ty]; auto.
    - destruct (existsb (is_ph P) zs) eqn:E; auto. exfalso. apply existsb_exists in E. destruct E as [z [Z1 Z2]].
      apply In_nth_error in Z1. destruct Z1 as [i Z1]. destruct (X z Z2) as [x ->]. apply (F i I x). exact Z1.
    - destruct (existsb (is_ph P) (firstn (Nat.div2 (length zs)) zs)) eqn:E; auto. exfalso.
      apply existsb_exists in E. destruct E as [z [Z1 Z2]].
      apply In_nth_error in Z1. destruct Z1 as [i Z1]. destruct (X z Z2) as [x ->].
      assert (i < Nat.div2 (length zs)).
      { assert (i < length (firstn (Nat.div2 (length zs)) zs)) by (apply nth_error_Some; congruence).
        rewrite firstn_length in H0. lia. }
      apply (F i H0 x). rewrite <- Z1. rewrite <- (firstn_skipn (Nat.div2 (length zs)) zs) at 1.
      rewrite nth_error_app1; auto. apply nth_error_Some. congruence.
  Qed.

  Lemma ext_path : forall s t f s' t' f' x l, Ext s t f s' t' f' (x :: l) -> Ext s t f s' t' f' l.
  Proof. intros s t f s' t' f' x l [A1 A2 A3 A4]. constructor; auto. intros. eapply A4; eauto. now right. Qed.

  Lemma visit_all : forall n, visit n.
  Proof.
    induction n as [|n IH]; intros s b tr s' bs E l t f pos rest I A SK; [discriminate|].
    simpl in E.
    assert (LT : b < length h) by (eapply arrive_in; eauto).
    destruct (nth_error h b) as [o|] eqn:HB; [|apply nth_error_None in HB; lia].
    destruct (empty_dec b) as [EM|NE].
    - rewrite ss_empty in E; auto. inversion E; subst. clear E.
      pose proof (visit_empty s t f l b I A EM) as VE. simpl in VE.
      rewrite des_eq. simpl is_leaf. cbv iota. simpl deserial_single.
      eexists. eexists. eexists. split; [simpl; reflexivity|]. exact VE.
    - rewrite (ss_other s b o) in E; auto. destruct (known s b) eqn:K.
      + apply known_iff in K. inversion E; subst. clear E.
        destruct (v_num _ _ _ _ I b K) as [id [D _]]. rewrite D.
        destruct (visit_known s' t f l b id I A K D) as [w [t' [V1 [V2 [V3 V4]]]]].
        rewrite des_eq. simpl is_leaf. cbv iota. simpl num_bufs. simpl firstn. rewrite V1.
        exists w, t', f. auto.
      + assert (NI : ~ In b (ctx s)) by (intros Q; apply known_iff in Q; congruence).
        destruct (inv_open s t f l b I A NI NE) as [I1 [D1 [C1 X1]]].
        set (s1 := snd (number s b true)) in *.
        assert (PC : forall a, In a (pa l) -> In a (ctx s)) by apply (v_pctx _ _ _ _ I).
        destruct o as [c|k vs].
        * inversion E; subst. clear E.
          destruct (inv_close s1 t f b 0 l (length (d s)) (OLeaf c) (DLeaf c) [] I1 D1 HB NE) as [I2 [X2 W2]].
          { simpl. auto. }
          cbn [register] in I2, X2, W2. rewrite dst_eta in I2, X2, W2.
          rewrite des_eq. simpl is_leaf. cbv iota. simpl num_bufs.
          rewrite SK, firstn_app, firstn_all, Nat.sub_diag. simpl firstn. rewrite app_nil_r.
          simpl. rewrite leaf_ok.
          eexists. eexists. exists (f ++ [b]). split; [reflexivity|].
          split; [now apply inv_bump|]. split; [eapply ext_trans; eauto|].
          simpl. rewrite <- (v_len _ _ _ _ I). apply nth_snoc_new.
        * destruct (sers (ser n h) s1 (refs P vs)) as [[[ts s2] bs2]|] eqn:E1; [|discriminate].
          inversion E; subst. clear E.
          destruct (slots_ok n IH b k l vs s1 ts s' bs E1 [] t f pos rest HB I1 SK) as [ws [t2 [f2 [zs [DD [FI [I2 [X2 R2]]]]]]]].
          simpl in I2, R2.
          assert (ZL : length zs = length vs) by (symmetry; eapply forall2_len; eauto).
          assert (D2 : did s' b = Some (length (d s))) by (rewrite (x_d _ _ _ _ _ _ _ X2); auto).
          destruct (inv_close s' t2 f2 b (length vs) l (length (d s)) (ONode k vs) (DNode k zs) zs I2 D2 HB NE) as [I3 [X3 W3]].
          { simpl. auto. }
          assert (DS : forall bb, deserial_single t2 (HNode (length (d s)) k (map (inline_of P) vs)) ws bb =
             DOk (new_obj P C {| dh := dh _ _ t2; cx := register P (cx _ _ t2) (length (dh _ _ t2)) 0 zs |} (length (d s)) (DNode k zs))).
          { intros bb. simpl. rewrite FI. apply node_des. intros i FZ x Z.
            destruct (forall2_nth _ _ _ _ _ R2 i _ Z) as [v [V1 V2]]. destruct v as [p|c]; simpl in V2; [contradiction|].
            destruct V2 as [V3 [V4 _]]. rewrite ZL in FZ.
            destruct (v_trail _ _ _ _ I2) as [Q|T1]; [discriminate|].
            apply (FR b (pa l) k vs i c); auto. }
          assert (DES : des bufs t pos (T (HNode (length (d s)) k (map (inline_of P) vs)) ts) =
             let '(w, t') := new_obj P C {| dh := dh _ _ t2; cx := register P (cx _ _ t2) (length (dh _ _ t2)) 0 zs |} (length (d s)) (DNode k zs)
             in DOk (w, t', pos + length bs)).
          { rewrite des_eq. destruct ts as [|t1 ts].
            - simpl is_leaf. cbv iota. simpl num_bufs.
              cbn [dess SerMachine.dess] in DD.
              assert (W0 : ws = []) by congruence. assert (T2 : t2 = t) by congruence.
              assert (P0 : pos = pos + length bs) by congruence. subst ws t2. rewrite DS.
              assert (L0 : length bs = 0) by lia. rewrite L0. reflexivity.
            - simpl is_leaf. cbv iota. rewrite DD, DS. reflexivity. }
          rewrite DES.
          destruct (new_obj P C {| dh := dh _ _ t2; cx := register P (cx _ _ t2) (length (dh _ _ t2)) 0 zs |} (length (d s)) (DNode k zs)) as [w t3] eqn:NO.
          simpl in I3, X3, W3. subst w. exists (DR (length f2)), t3, (f2 ++ [b]). split; [reflexivity|].
          split; [now apply inv_bump|]. split.
          -- eapply ext_trans; [exact PC|exact X1|]. eapply ext_trans; [|eapply ext_path; exact X2|exact X3].
             intros a Q. apply (x_ctx _ _ _ _ _ _ _ X1). auto.
          -- simpl. apply nth_snoc_new.
  Qed.

  Lemma inv_init : Inv s0 (t0 P C) [] [].
  Proof.
    constructor; simpl; auto; try (intros; contradiction); try discriminate.
    - intros [|a'] a E; discriminate.
    - intros [|a'] a E; discriminate.
    - intros _. split; [discriminate|]. intros e E N. exfalso. apply N. reflexivity.
  Qed.
End S.
