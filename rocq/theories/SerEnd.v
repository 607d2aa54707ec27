(** The round trip as a whole, for a reference as root. *)
From Coq Require Import List Arith Bool Lia Relations.
From Verif Require Import Base Dict SerModel SerSpec SerMachine SerProofs.
Import ListNotations.

Section E.
  Variables P C H B : Type.
  Variable leaf_head : C -> H.
  Variable leaf_bufs : C -> list B.
  Variable leaf_load : H -> list B -> option C.
  Hypothesis leaf_ok : forall c, leaf_load (leaf_head c) (leaf_bufs c) = Some c.
  Notation heap := (heap P C).
  Notation serialize := (serialize P C H B leaf_head leaf_bufs).
  Notation deserialize := (deserialize P C H B leaf_load).
  Notation ser := (ser P C H B leaf_head leaf_bufs).
  Notation des := (des P C H B leaf_load).

  (** How the copy is related to the original: [g] maps the new addresses to the old. *)
  Definition copies (h : heap) (g : list nat) (o : obj P C) (o' : dobj P C) : Prop :=
    match o, o' with
    | OLeaf c, DLeaf c' => c = c'
    | ONode k vs, DNode k' ws => k = k' /\ length vs = length ws /\
        forall i v w, nth_error vs i = Some v -> nth_error ws i = Some w ->
          match v, w with
          | VP p, DP q => p = q
          | VR b, DR b' => nth_error g b' = Some b
          | _, _ => False
          end
    | _, _ => False
    end.
  Definition morphism (h : heap) (g : list nat) (h2 : list (dobj P C)) : Prop :=
    length g = length h2 /\
    (forall a' a, nth_error g a' = Some a -> exists o o',
        nth_error h a = Some o /\ nth_error h2 a' = Some o' /\ copies h g o o') /\
    (forall a b c, nth_error g a = Some c -> nth_error g b = Some c -> ~ empty P C h c -> a = b).

  Lemma inv_morphism : forall h root s t f, Inv P C h root s t f [] -> morphism h f (dh _ _ t).
  Proof.
    intros h root s t f I. split; [apply (v_len _ _ _ _ _ _ _ _ I)|]. split.
    - intros a' a Fa. destruct (v_obj _ _ _ _ _ _ _ _ I a' a Fa) as [o [o' [O1 [O2 O3]]]].
      exists o, o'. split; auto. split; auto. destruct o as [c|k vs], o' as [c'|k' ws]; simpl in *; auto.
      destruct O3 as [Q1 [Q2 Q3]]. split; auto. split; auto. intros i v w V W. specialize (Q3 i v w V W).
      destruct v as [p|b], w as [q|b'|id]; simpl in *; auto. tauto.
    - intros a b c Fa Fb N. destruct (v_back _ _ _ _ _ _ _ _ I a c Fa N) as [A1 [_ A2]].
      destruct (v_back _ _ _ _ _ _ _ _ I b c Fb N) as [_ [_ B2]].
      destruct (v_num _ _ _ _ _ _ _ _ I c A1) as [id [D _]].
      specialize (A2 id D). specialize (B2 id D). congruence.
  Qed.

  Definition trip (h : heap) (root : nat) : Prop :=
    exists tr bs h2 a2 g,
      (exists k, forall fuel, k <= fuel -> serialize fuel h (VR root) = Some (None, tr, bs)) /\
      (exists k, forall fuel, k <= fuel -> deserialize fuel tr bs = Some (DOk (h2, DR a2, length bs))) /\
      nth_error g a2 = Some root /\ morphism h g h2.

  Lemma trip_empty : forall h root, empty P C h root -> trip h root.
  Proof.
    intros h root E. exists (T (HEmpty 0) []), [], [DNode (KDict 0) []], 0, [root].
    split; [|split; [|split]].
    - exists 0. intros fuel _. unfold SerModel.serialize, start. rewrite ss_empty; auto.
    - exists 0. intros fuel _. reflexivity.
    - reflexivity.
    - split; [reflexivity|]. split.
      + intros [|a'] a Q; [|destruct a'; discriminate]. simpl in Q. inversion Q; subst a.
        exists (ONode (KDict 0) []), (DNode (KDict 0) []). split; [exact E|]. split; [reflexivity|].
        simpl. split; auto. split; auto. intros [|i] v w V; discriminate.
      + intros [|a] [|b] c Q1 Q2 N; auto; [destruct b|destruct a|destruct a]; discriminate.
  Qed.

  Lemma trip_other : forall h root, closed P C h root -> frozen_ok P C h root ->
    acyclic P C h root \/ once P C h root -> ~ empty P C h root -> trip h root.
  Proof.
    intros h root CL FR MODE NE.
    destruct (ser_total P C H B leaf_head leaf_bufs h root CL (S (length h)) s0 root) as [tr [s' [bs [E [_ _]]]]].
    { split; [constructor|intros x []]. }
    { now left. }
    { simpl. lia. }
    pose proof (inv_init P C h root) as I0.
    destruct (visit_all P C H B leaf_head leaf_bufs leaf_load leaf_ok h root CL FR MODE bs (S (length h))
                s0 root tr s' bs E [] (t0 P C) [] 0 [] I0) as [w [t' [f' [D [I [X R]]]]]].
    { simpl. auto. }
    { simpl. now rewrite app_nil_r. }
    simpl in I, R, D.
    destruct w as [p|a2|id]; simpl in R; [contradiction| |tauto].
    exists tr, bs, (dh _ _ t'), a2, f'. split; [|split; [|split; [exact R|eapply inv_morphism; eauto]]].
    - eapply serialize_ser; eauto.
    - destruct (deserialize_des P C H B leaf_load tr bs) as [k K].
      + intros L. destruct tr as [hd subs].
        cbn [SerMachine.ser] in E. destruct CL as [C1 _].
        destruct (nth_error h root) as [o|] eqn:HR; [|apply nth_error_None in HR; lia].
        rewrite (ss_other P C H B leaf_head leaf_bufs h s0 root o NE HR) in E. change (known s0 root) with false in E. cbv iota in E.
        destruct o as [c|kd vs].
        * inversion E; subst. simpl. lia.
        * destruct (sers P H B (SerMachine.ser P C H B leaf_head leaf_bufs (length h) h) (snd (number s0 root true)) (refs P vs))
            as [[[ts s2] bs2]|] eqn:SS; [|discriminate].
          injection E as <- <- _ <-. destruct ts; [|discriminate].
          destruct (refs P vs) as [|r rs].
          -- simpl in SS. inversion SS; subst. simpl. lia.
          -- apply sers_length in SS. discriminate.
      + exists k. intros fuel Kf. rewrite (K fuel Kf). unfold dtop. simpl in D. rewrite D. reflexivity.
  Qed.

  (** Simple sufficient conditions. *)
  Lemma acyclic_frozen : forall h root, acyclic P C h root -> frozen_ok P C h root.
  Proof.
    intros h root AC a l k vs i b T1 HA V F [Q|Q].
    - subst b. apply (AC a); [eapply trail_from; eauto; now left|]. apply t_step. exists i, k, vs. auto.
    - apply (AC b); [eapply trail_from; eauto; now right|].
      apply t_trans with a; [eapply trail_reach; eauto|]. apply t_step. exists i, k, vs. auto.
  Qed.
End E.

(** *** From the deserializer's heap to the user's *)
Section U.
  Variables P C : Type.
  Notation heap := (heap P C).
  Notation val := (val P).

  Definition vrel (g : list nat) (v v2 : val) : Prop :=
    match v, v2 with VP p, VP q => p = q | VR b, VR b' => nth_error g b' = Some b | _, _ => False end.
  Definition orel (g : list nat) (o o2 : obj P C) : Prop :=
    match o, o2 with
    | OLeaf c, OLeaf c' => c = c'
    | ONode k vs, ONode k' ws => k = k' /\ Forall2 (vrel g) vs ws
    | _, _ => False
    end.
  Definition hrel (h : heap) (g : list nat) (h2 : heap) : Prop :=
    forall a' a, nth_error g a' = Some a -> exists o o2,
      nth_error h a = Some o /\ nth_error h2 a' = Some o2 /\ orel g o o2.

  Lemma all_some_nth : forall X Y (f : X -> option Y) l,
    (forall i x, nth_error l i = Some x -> exists y, f x = Some y) ->
    exists ys, all_some f l = Some ys /\ length ys = length l /\
      forall i x, nth_error l i = Some x -> exists y, f x = Some y /\ nth_error ys i = Some y.
  Proof.
    intros X Y f. induction l as [|x l IH]; intros F; simpl.
    - exists []. repeat split; auto. intros [|i] x E; discriminate.
    - destruct (F 0 x eq_refl) as [y E]. rewrite E.
      destruct IH as [ys [E2 [L2 N2]]]; [intros i z Q; apply (F (S i) z Q)|]. rewrite E2.
      exists (y :: ys). split; auto. split; [simpl; congruence|]. intros [|i] z Q; simpl in *.
      + inversion Q; subst. eauto.
      + eauto.
  Qed.

  Lemma forall2_intro : forall X Y (R : X -> Y -> Prop) l1 l2, length l1 = length l2 ->
    (forall i x y, nth_error l1 i = Some x -> nth_error l2 i = Some y -> R x y) -> Forall2 R l1 l2.
  Proof.
    induction l1 as [|x l1 IH]; destruct l2 as [|y l2]; simpl; intros L F; try discriminate; constructor.
    - apply (F 0); reflexivity.
    - apply IH; auto. intros i a b A1 A2. apply (F (S i)); auto.
  Qed.

  Lemma clean_ok : forall h g hd, morphism P C h g hd -> exists h2, clean_heap P C hd = Some h2 /\ hrel h g h2.
  Proof.
    intros h g hd [L [M _]].
    assert (OB : forall a' o', nth_error hd a' = Some o' -> exists a o o2, nth_error g a' = Some a /\
       nth_error h a = Some o /\ clean_obj P C o' = Some o2 /\ orel g o o2).
    { intros a' o' E. destruct (nth_error g a') as [a|] eqn:G.
      2:{ apply nth_error_None in G. assert (a' < length hd) by (apply nth_error_Some; congruence). lia. }
      destruct (M a' a G) as [o [o1 [O1 [O2 O3]]]]. assert (o1 = o') by congruence. subst o1.
      exists a, o. destruct o as [c|k vs], o' as [c'|k' ws]; simpl in O3; try contradiction.
      - exists (OLeaf c'). simpl. auto.
      - destruct O3 as [-> [LV O3]].
        destruct (all_some_nth _ _ (clean_val P) ws) as [ys [Y1 [Y2 Y3]]].
        { intros i w W. destruct (nth_error vs i) as [v|] eqn:V.
          2:{ apply nth_error_None in V. assert (i < length ws) by (apply nth_error_Some; congruence). lia. }
          specialize (O3 i v w V W). destruct v as [p|b], w as [q|b'|id]; try contradiction; simpl; eauto. }
        exists (ONode k' ys). simpl. rewrite Y1. simpl. repeat split; auto.
        apply forall2_intro; [congruence|]. intros i v y V Y.
        destruct (nth_error ws i) as [w|] eqn:W.
        2:{ apply nth_error_None in W. assert (i < length ys) by (apply nth_error_Some; congruence). lia. }
        destruct (Y3 i w W) as [y' [Q1 Q2]]. assert (y' = y) by congruence. subst y'.
        specialize (O3 i v w V W). destruct v as [p|b], w as [q|b'|id]; try contradiction; simpl in Q1; injection Q1 as <-; exact O3. }
    destruct (all_some_nth _ _ (clean_obj P C) hd) as [h2 [E1 [E2 E3]]].
    { intros i o' E. destruct (OB i o' E) as [a [o [o2 [_ [_ [Q _]]]]]]. eauto. }
    exists h2. split; auto. intros a' a G.
    destruct (M a' a G) as [o [o' [O1 [O2 _]]]]. destruct (OB a' o' O2) as [a1 [o1 [o2 [Q1 [Q2 [Q3 Q4]]]]]].
    destruct (E3 a' o' O2) as [y [Y1 Y2]]. exists o, o2. repeat split; auto; congruence.
  Qed.

  Lemma forall2_nth1 : forall X Y (R : X -> Y -> Prop) l1 l2, Forall2 R l1 l2 ->
    forall i, match nth_error l1 i, nth_error l2 i with Some x, Some y => R x y | None, None => True | _, _ => False end.
  Proof. induction 1; intros [|i]; simpl; auto. apply IHForall2. Qed.

  Lemma follow_rel : forall h g h2, hrel h g h2 -> forall p v v2, vrel g v v2 ->
    match follow P C h v p, follow P C h2 v2 p with Some x, Some y => vrel g x y | None, None => True | _, _ => False end.
  Proof.
    intros h g h2 R. induction p as [|i p IH]; simpl; intros v v2 V; auto.
    destruct v as [q|b], v2 as [q2|b2]; simpl in V; try contradiction; auto.
    destruct (R b2 b V) as [o [o2 [O1 [O2 O3]]]]. rewrite O1, O2.
    destruct o as [c|k vs], o2 as [c2|k2 ws]; simpl in O3; try contradiction; auto.
    destruct O3 as [_ F]. pose proof (forall2_nth1 _ _ _ _ _ F i) as N.
    destruct (nth_error vs i), (nth_error ws i); try contradiction; auto. apply IH. exact N.
  Qed.
  Lemma look_rel : forall h g h2, hrel h g h2 -> forall p v v2, vrel g v v2 -> look P C h v p = look P C h2 v2 p.
  Proof.
    intros h g h2 R p v v2 V. unfold look. pose proof (follow_rel _ _ _ R p v v2 V) as F.
    destruct (follow P C h v p) as [[q|b]|], (follow P C h2 v2 p) as [[q2|b2]|]; simpl in F; try contradiction; auto.
    - congruence.
    - destruct (R b2 b F) as [o [o2 [O1 [O2 O3]]]]. rewrite O1, O2.
      destruct o as [c|k vs], o2 as [c2|k2 ws]; simpl in O3; try contradiction; [congruence|].
      destruct O3 as [-> F2]. now rewrite (forall2_len _ _ _ _ _ F2).
  Qed.

  (** *** Values that denote a tree *)
  Section DataInd.
    Variable Q : data P C -> Prop.
    Hypothesis QP : forall p, Q (Prim p).
    Hypothesis QL : forall c, Q (Leaf c).
    Hypothesis QN : forall k xs, Forall Q xs -> Q (Node k xs).
    Fixpoint data_ind' (x : data P C) : Q x :=
      match x with
      | Prim p => QP p
      | Leaf c => QL c
      | Node k xs => QN k xs ((fix all l : Forall Q l :=
          match l with [] => Forall_nil _ | y :: l' => Forall_cons y (data_ind' y) (all l') end) xs)
      end.
  End DataInd.

  Lemma denotes_node : forall (h : heap) v k xs, denotes P C h v (Node k xs) <->
    exists a vs, v = VR a /\ nth_error h a = Some (ONode k vs) /\ Forall2 (denotes P C h) vs xs.
  Proof.
    intros h v k xs. simpl.
    assert (E : forall ys vs, (fix all (vs : list val) (xs : list (data P C)) {struct xs} : Prop :=
           match vs, xs with
           | [], [] => True
           | v :: vs', x :: xs' => denotes P C h v x /\ all vs' xs'
           | _, _ => False
           end) vs ys <-> Forall2 (denotes P C h) vs ys).
    { induction ys as [|y ys IH]; intros [|w vs]; try (split; [contradiction|intros Q; inversion Q]).
      - split; auto.
      - rewrite IH. split; [intros [A1 A2]; constructor; auto|intros Q; inversion Q; auto]. }
    split; intros [a [vs [A1 [A2 A3]]]]; exists a, vs; repeat split; auto; now apply E.
  Qed.

  Lemma denotes_rel : forall h g h2, hrel h g h2 -> forall x v v2, vrel g v v2 ->
    denotes P C h v x -> denotes P C h2 v2 x.
  Proof.
    intros h g h2 R. induction x as [p|c|k xs IH] using data_ind'; intros v v2 V D.
    - simpl in *. subst v. destruct v2; simpl in V; [congruence|contradiction].
    - simpl in *. destruct D as [a [-> D]]. destruct v2 as [q|b]; simpl in V; [contradiction|].
      destruct (R b a V) as [o [o2 [O1 [O2 O3]]]]. rewrite D in O1. inversion O1; subst o.
      destruct o2 as [c2|k2 ws]; simpl in O3; [|contradiction]. subst. eauto.
    - apply denotes_node in D. apply denotes_node. destruct D as [a [vs [-> [D1 D2]]]].
      destruct v2 as [q|b]; simpl in V; [contradiction|].
      destruct (R b a V) as [o [o2 [O1 [O2 O3]]]]. rewrite D1 in O1. inversion O1; subst o.
      destruct o2 as [c2|k2 ws]; simpl in O3; [contradiction|]. destruct O3 as [<- F].
      exists b, ws. repeat split; auto. clear D1 O1 O2 V.
      revert xs ws IH D2 F. induction vs as [|v vs IV]; intros xs ws IH D2 F; inversion D2; inversion F; subst; constructor.
      + inversion IH; subst. eauto.
      + inversion IH; subst. eapply IV; eauto.
  Qed.

  Lemma denotes_sub : forall (h : heap) a b x, denotes P C h (VR a) x -> edge P C h a b -> exists y, denotes P C h (VR b) y.
  Proof.
    intros h a b x D [i [k [vs [E1 E2]]]]. destruct x as [p|c|k' xs].
    - discriminate.
    - destruct D as [a' [Q D]]. congruence.
    - apply denotes_node in D. destruct D as [a' [vs' [Q [D1 D2]]]]. inversion Q; subst a'.
      assert (vs' = vs) by congruence. subst vs'. pose proof (forall2_nth1 _ _ _ _ _ D2 i) as N.
      rewrite E2 in N. destruct (nth_error xs i) as [y|]; [eauto|contradiction].
  Qed.
  Lemma denotes_acc : forall (h : heap) x a, denotes P C h (VR a) x -> Acc (fun b a => edge P C h a b) a.
  Proof.
    intros h. induction x as [p|c|k xs IH] using data_ind'; intros a D.
    - discriminate.
    - destruct D as [a' [Q D]]. inversion Q; subst a'. constructor. intros b [i [k [vs [E1 E2]]]]. congruence.
    - apply denotes_node in D. destruct D as [a' [vs [Q [D1 D2]]]]. inversion Q; subst a'. constructor.
      intros b [i [k' [vs' [E1 E2]]]]. assert (vs' = vs) by congruence. subst vs'.
      pose proof (forall2_nth1 _ _ _ _ _ D2 i) as N. rewrite E2 in N.
      destruct (nth_error xs i) as [y|] eqn:Y; [|contradiction].
      rewrite Forall_forall in IH. apply (IH y); auto. eapply nth_error_In; eauto.
  Qed.
  Lemma denotes_in : forall (h : heap) a x, denotes P C h (VR a) x -> a < length h.
  Proof.
    intros h a x D. apply nth_error_Some. destruct x as [p|c|k xs].
    - discriminate.
    - destruct D as [a' [Q D]]. congruence.
    - apply denotes_node in D. destruct D as [a' [vs [Q [D1 D2]]]]. congruence.
  Qed.
  Lemma acc_no_loop : forall (h : heap) a, Acc (fun b a => edge P C h a b) a -> ~ reach P C h a a.
  Proof.
    intros h. induction 1 as [a A IH]. intros R. pose proof R as R0. apply clos_trans_t1n in R. inversion R; subst.
    - apply (IH a); auto.
    - apply (IH y); auto. eapply t_trans; [apply clos_t1n_trans; eassumption|]. now apply t_step.
  Qed.
  Lemma denotes_graph : forall (h : heap) a x, denotes P C h (VR a) x -> closed P C h a /\ acyclic P C h a.
  Proof.
    intros h a x D.
    assert (F : forall b, from P C h a b -> exists y, denotes P C h (VR b) y).
    { intros b [->|R]; [eauto|]. apply clos_trans_tn1 in R. induction R as [b E|b c E R [y IH]].
      - eapply denotes_sub; eauto.
      - eapply denotes_sub; eauto. }
    split.
    - split; [eapply denotes_in; eauto|]. intros b c Fb E. destruct (F b Fb) as [y Dy].
      destruct (denotes_sub h b c y Dy E) as [z Dz]. eapply denotes_in; eauto.
    - intros b Fb. destruct (F b Fb) as [y Dy]. apply acc_no_loop. eapply denotes_acc; eauto.
  Qed.
End U.
