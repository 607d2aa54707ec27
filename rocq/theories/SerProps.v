(** C01, C02, C03: serialize, deserialize and serialize_with_spawn of
    xoscar.serialization.

    Reading guide.  [SerModel] has the program's heap and the two stack machines of
    core.pyx; [SerSpec] says what the user sees of a heap ([denotes], [follow],
    [look], [same]) and the conditions on graphs.  The theorems hold for every type
    of primitives and leaves and every leaf serializer that is a round trip on its
    own ([leaf_ok]): bytes, long strings and pickle are such serializers. *)
From Coq Require Import List Arith Bool ZArith Lia Relations.
From Verif Require Import Base Dict SerModel SerSpec SerMachine SerProofs SerEnd.
Import ListNotations.

Section S.
  Variables P C H B : Type.
  Variable leaf_head : C -> H.
  Variable leaf_bufs : C -> list B.
  Variable leaf_load : H -> list B -> option C.
  Notation heap := (heap P C).
  Notation val := (val P).
  Notation serialize := (serialize P C H B leaf_head leaf_bufs).
  Notation serialize_with_spawn := (serialize_with_spawn P C H B leaf_head leaf_bufs).
  Notation deserialize := (deserialize P C H B leaf_load).

  Definition leaf_round_trip : Prop := forall c, leaf_load (leaf_head c) (leaf_bufs c) = Some c.

  (** serialize and deserialize end (the number of turns of their loops is not
      bounded beforehand); [v2] in [h2] is what deserialize returns, no
      Placeholder is left in [h2], and all buffers have been used. *)
  Definition round_trip (h : heap) (v : val) (h2 : heap) (v2 : val) : Prop :=
    exists tr bs hd w,
      (exists k, forall fuel, k <= fuel -> serialize fuel h v = Some (None, tr, bs)) /\
      (exists k, forall fuel, k <= fuel -> deserialize fuel tr bs = Some (DOk (hd, w, length bs))) /\
      clean_heap P C hd = Some h2 /\ clean_val P w = Some v2.

  Lemma trip_round : forall h a, trip P C H B leaf_head leaf_bufs leaf_load h a ->
    exists h2 a2 g, round_trip h (VR a) h2 (VR a2) /\ nth_error g a2 = Some a /\ hrel P C h g h2 /\
      forall x y z, nth_error g x = Some z -> nth_error g y = Some z -> ~ empty P C h z -> x = y.
  Proof.
    intros h a [tr [bs [hd [a2 [g [S1 [D1 [G M]]]]]]]]. destruct (clean_ok P C h g hd M) as [h2 [C1 C2]].
    exists h2, a2, g. split; [exists tr, bs, hd, (DR a2); auto|]. split; auto. split; auto. apply M.
  Qed.

  Lemma prim_round : forall h p, round_trip h (VP p) [] (VP p).
  Proof.
    intros h p. exists (T (HPrim 0 p) []), [], [], (DP p). split; [exists 0; reflexivity|]. split; [|split; reflexivity].
    exists 0. intros fuel _. reflexivity.
  Qed.

  (** C01: any tree of data comes back equal. *)
  Theorem C01_round_trip : leaf_round_trip -> forall h v x, denotes P C h v x ->
    exists h2 v2, round_trip h v h2 v2 /\ denotes P C h2 v2 x.
  Proof.
    unfold leaf_round_trip. intros LO h v x D. destruct v as [p|a].
    - exists [], (VP p). split; [apply prim_round|]. destruct x as [q|c|k xs].
      + exact D.
      + destruct D as [a [Q _]]. discriminate.
      + destruct D as [a [vs [Q _]]]. discriminate.
    - destruct (denotes_graph P C h a x D) as [CL AC].
      assert (TR : trip P C H B leaf_head leaf_bufs leaf_load h a).
      { destruct (empty_dec P C h a); [now apply trip_empty|].
        apply trip_other; auto. now apply acyclic_frozen. }
      destruct (trip_round h a TR) as [h2 [a2 [g [R [G [HR _]]]]]].
      exists h2, (VR a2). split; auto. eapply denotes_rel; eauto. exact G.
  Qed.

  (** C02, in full: positions show the same, and hold one object in the copy if and
      only if they do in the original. *)
  Definition C02_claim : Prop := leaf_round_trip -> forall h a, closed P C h a ->
    exists h2 v2, round_trip h (VR a) h2 v2 /\
      (forall p, look P C h (VR a) p = look P C h2 v2 p) /\
      (forall p q, same P C h (VR a) p q <-> same P C h2 v2 p q).

  (** Proved: when no tuple item or dictionary key closes a cycle, and either there
      are no cycles or no empty dictionary is held twice: all positions show the
      same, positions of different objects hold different objects, and positions of
      one object hold one object unless it is an empty dictionary. *)
  Theorem C02_sharing_partial : leaf_round_trip -> forall h a, closed P C h a ->
    frozen_ok P C h a -> acyclic P C h a \/ once P C h a ->
    exists h2 v2, round_trip h (VR a) h2 v2 /\
      (forall p, look P C h (VR a) p = look P C h2 v2 p) /\
      (forall p q, same P C h2 v2 p q -> same P C h (VR a) p q) /\
      (forall p q, same P C h (VR a) p q -> look P C h (VR a) p <> Some (SCont (KDict 0) 0) ->
         same P C h2 v2 p q).
  Proof.
    unfold leaf_round_trip. intros LO h a CL FR MODE.
    assert (TR : trip P C H B leaf_head leaf_bufs leaf_load h a).
    { destruct (empty_dec P C h a); [now apply trip_empty|]. apply trip_other; auto. }
    destruct (trip_round h a TR) as [h2 [a2 [g [R [G [HR INJ]]]]]].
    exists h2, (VR a2). split; auto.
    assert (V : vrel P g (VR a) (VR a2)) by exact G.
    split; [intros p; eapply look_rel; eauto|].
    assert (FO : forall p, match follow P C h (VR a) p, follow P C h2 (VR a2) p with
       | Some x, Some y => vrel P g x y | None, None => True | _, _ => False end).
    { intros p. eapply follow_rel; eauto. }
    split; intros p q [b [B1 B2]].
    - pose proof (FO p) as F1. pose proof (FO q) as F2. rewrite B1 in F1. rewrite B2 in F2.
      destruct (follow P C h (VR a) p) as [[?|x]|] eqn:E1; simpl in F1; try contradiction.
      destruct (follow P C h (VR a) q) as [[?|y]|] eqn:E2; simpl in F2; try contradiction.
      assert (x = y) by congruence. subst y. exists x. auto.
    - intros NE. pose proof (FO p) as F1. pose proof (FO q) as F2. rewrite B1 in F1. rewrite B2 in F2.
      destruct (follow P C h2 (VR a2) p) as [[?|x]|] eqn:E1; simpl in F1; try contradiction.
      destruct (follow P C h2 (VR a2) q) as [[?|y]|] eqn:E2; simpl in F2; try contradiction.
      assert (x = y); [|subst y; exists x; auto]. apply (INJ x y b); auto.
      intros EM. apply NE. unfold look. rewrite B1, EM. reflexivity.
  Qed.

  (** Graphs of lists, dictionary values and leaves only: [frozen_ok] holds if no
      tuple item and no dictionary key lies on a cycle. *)
  Theorem C02_no_frozen_cycle_partial : forall h a,
    (forall b k vs i c, from P C h a b -> nth_error h b = Some (ONode k vs) -> nth_error vs i = Some (VR c) ->
       frozen k (length vs) i -> c <> b /\ ~ reach P C h c b) ->
    frozen_ok P C h a.
  Proof.
    intros h a N b l k vs i c T1 HB V F [Q|Q].
    - destruct (N b k vs i c) as [N1 _]; auto. eapply trail_from; eauto. now left.
    - destruct (N b k vs i c) as [_ N2]; auto; [eapply trail_from; eauto; now left|].
      apply N2. eapply trail_reach; eauto.
  Qed.

  (** C03: for every threshold (also 0 and negative ones, which mean no limit)
      serialize_with_spawn ends whenever the object graph is finite, with the header
      tree and the buffers of serialize; only the count "_N", which deserialize does
      not use, may be added. *)
  Theorem C03_spawn_same : forall h v threshold, (forall a, v = VR a -> closed P C h a) ->
    exists tr bs k, forall fuel, k <= fuel ->
      serialize fuel h v = Some (None, tr, bs) /\
      exists meta, serialize_with_spawn fuel h v threshold = Some (meta, tr, bs).
  Proof.
    intros h v z CL.
    assert (S : exists tr bs k, forall fuel, k <= fuel -> serialize fuel h v = Some (None, tr, bs)).
    { destruct v as [p|a].
      - exists (T (HPrim 0 p) []), [], 0. reflexivity.
      - destruct (ser_total P C H B leaf_head leaf_bufs h a (CL a eq_refl) (S (length h)) s0 a) as [tr [s' [bs [E _]]]].
        { split; [constructor|intros x []]. }
        { now left. }
        { simpl. lia. }
        apply serialize_ser in E. destruct E as [k K]. eauto. }
    destruct S as [tr [bs [k K]]]. exists tr, bs, k. intros fuel L. split; auto. apply spawn_same. auto.
  Qed.

End S.

(** *** Examples

    Primitives are numbers; a leaf is a list of byte strings (one buffer each) whose
    header is their number, as for a pickled object with out-of-band buffers. *)
Module Demo.
  Definition bytes := list nat.
  Definition C := list bytes.
  Definition lh (c : C) : nat := length c.
  Definition lb (c : C) : list bytes := c.
  Definition ll (h : nat) (bs : list bytes) : option C := if length bs =? h then Some bs else None.
  Lemma ll_ok : leaf_round_trip C nat bytes lh lb ll.
  Proof. intros c. unfold ll, lh, lb. now rewrite Nat.eqb_refl. Qed.

  Notation h := (list (obj nat C)).
  Definition rt (x : h) (a : nat) : option (dres (list (dobj nat C) * dval nat * nat)) :=
    match serialize nat C nat bytes lh lb 50 x (VR a) with
    | Some (_, t, bs) => deserialize nat C nat bytes ll 50 t bs
    | None => None
    end.

  (** {1: [b"..", (7, b".."), {}], 2: (7, ..)}: the tuple is shared *)
  Definition tree1 : h :=
    [ ONode (KDict 0) [VP 1; VP 2; VR 1; VR 3];
      ONode (KList 0) [VR 2; VR 3; VR 5];
      OLeaf [[1; 2]; [3]];
      ONode (KTuple 0) [VP 7; VR 4];
      OLeaf [[9]];
      ONode (KDict 0) [] ].
  Definition data1 : data nat C :=
    Node (KDict 0) [Prim 1; Prim 2;
      Node (KList 0) [Leaf [[1; 2]; [3]]; Node (KTuple 0) [Prim 7; Leaf [[9]]]; Node (KDict 0) []];
      Node (KTuple 0) [Prim 7; Leaf [[9]]]].
  Example tree1_denotes : denotes nat C tree1 (VR 0) data1.
  Proof. unfold data1. repeat (simpl; first [reflexivity | eexists | split | exact I]). Qed.
  Example tree1_trip : exists h2 v2, round_trip nat C nat bytes lh lb ll tree1 (VR 0) h2 v2 /\ denotes nat C h2 v2 data1.
  Proof. apply C01_round_trip; [apply ll_ok|apply tree1_denotes]. Qed.
  Example tree1_out : rt tree1 0 = Some (DOk (
    [ DLeaf [[1; 2]; [3]]; DLeaf [[9]]; DNode (KTuple 0) [DP 7; DR 1]; DNode (KDict 0) [];
      DNode (KList 0) [DR 0; DR 2; DR 3]; DNode (KDict 0) [DP 1; DP 2; DR 4; DR 2] ], DR 5, 3)).
  Proof. vm_compute. reflexivity. Qed.
  (** a threshold of 2 stops in the middle and goes on in the other thread *)
  Example tree1_spawn : exists t bs, serialize nat C nat bytes lh lb 50 tree1 (VR 0) = Some (None, t, bs) /\
    serialize_with_spawn nat C nat bytes lh lb 50 tree1 (VR 0) 2 = Some (Some 9, t, bs).
  Proof. eexists. eexists. split; vm_compute; reflexivity. Qed.

  (** x = [x, y, y] with y = {5: x}: a cycle and sharing *)
  Definition cyc : h := [ ONode (KList 0) [VR 0; VR 1; VR 1]; ONode (KDict 0) [VP 5; VR 0] ].
  Lemma cyc_slot : forall a i v, slot nat C cyc a i v ->
    (a = 0 /\ v = VR 0) \/ (a = 0 /\ v = VR 1) \/ (a = 1 /\ i = 0 /\ v = VP 5) \/ (a = 1 /\ v = VR 0).
  Proof.
    intros a i v [k [vs [E1 E2]]]. destruct a as [|[|[|a]]]; simpl in E1; inversion E1; subst.
    - destruct i as [|[|[|[|i]]]]; simpl in E2; inversion E2; subst; auto 8.
    - destruct i as [|[|[|i]]]; simpl in E2; inversion E2; subst; auto 8.
  Qed.
  Example cyc_closed : closed nat C cyc 0.
  Proof.
    split; [simpl; lia|]. intros a b _ [i E]. apply cyc_slot in E.
    destruct E as [[_ E]|[[_ E]|[[_ [_ E]]|[_ E]]]]; inversion E; simpl; lia.
  Qed.
  Example cyc_frozen : frozen_ok nat C cyc 0.
  Proof.
    intros a l k vs i b _ E1 E2 F. destruct a as [|[|[|a]]]; simpl in E1; inversion E1; subst; simpl in F; [contradiction|].
    assert (i = 0) by lia. subst i. discriminate.
  Qed.
  Example cyc_once : once nat C cyc 0.
  Proof. intros e a i b j E. exfalso. destruct e as [|[|[|e]]]; discriminate. Qed.
  Example cyc_trip : exists h2 v2, round_trip nat C nat bytes lh lb ll cyc (VR 0) h2 v2 /\
    same nat C h2 v2 [1] [2] /\ same nat C h2 v2 [] [1; 1] /\ ~ same nat C h2 v2 [] [1].
  Proof.
    destruct (C02_sharing_partial nat C nat bytes lh lb ll ll_ok cyc 0 cyc_closed cyc_frozen (or_intror cyc_once))
      as [h2 [v2 [R [_ [N S]]]]].
    exists h2, v2. split; auto. split; [|split].
    - apply S; [exists 1; auto|discriminate].
    - apply S; [exists 0; auto|discriminate].
    - intros Q. apply N in Q. destruct Q as [a [Q1 Q2]]. simpl in *. congruence.
  Qed.
  Example cyc_out : rt cyc 0 = Some (DOk ([DNode (KDict 0) [DP 5; DR 1]; DNode (KList 0) [DR 1; DR 0; DR 0]], DR 1, 0)).
  Proof. vm_compute. reflexivity. Qed.

  (** t = ([t],): also such a cycle through a tuple works *)
  Definition tup : h := [ ONode (KTuple 0) [VR 1]; ONode (KList 0) [VR 0] ].
  Example tup_frozen : frozen_ok nat C tup 0.
  Proof.
    intros a l k vs i b T E1 E2 F. destruct a as [|[|[|a]]]; simpl in E1; inversion E1; subst; simpl in F; [|contradiction].
    destruct i as [|[|i]]; simpl in E2; inversion E2; subst. intros [Q|Q]; [discriminate|].
    assert (TR : forall l, trail nat C tup 0 l -> forall r, l = 0 :: r -> r = []).
    { intros l' T'. induction T' as [|a l' b T' IH Ed N]; intros r Q'; inversion Q'; subst; auto.
      exfalso. apply N. clear - T'. remember (a :: l') as m. clear Heqm a.
      induction T' as [|a l2 b T' IH Ed N]; [now left|]. right. exact IH. }
    rewrite (TR _ T l eq_refl) in Q. contradiction.
  Qed.
  Example tup_out : rt tup 0 = Some (DOk ([DNode (KList 0) [DR 1]; DNode (KTuple 0) [DR 0]], DR 1, 0)).
  Proof. vm_compute. reflexivity. Qed.

  (** *** Where the claim fails *)
  (** [e, e] with e = {} *)
  Definition two_empty : h := [ ONode (KList 0) [VR 1; VR 1]; ONode (KDict 0) [] ].
  (** [e, e, x] with x = [x]: the ordered id of x is the one the second e was
      registered with, so x[0] is {} *)
  Definition clash : h := [ ONode (KList 0) [VR 1; VR 1; VR 2]; ONode (KDict 0) []; ONode (KList 0) [VR 2] ].
  Example clash_out : rt clash 0 = Some (DOk (
    [DNode (KDict 0) []; DNode (KDict 0) []; DNode (KList 0) [DR 1]; DNode (KList 0) [DR 0; DR 1; DR 2]], DR 3, 0)).
  Proof. vm_compute. reflexivity. Qed.
  (** x = [(x,)] *)
  Definition in_tuple : h := [ ONode (KList 0) [VR 1]; ONode (KTuple 0) [VR 0] ].
  Example in_tuple_out : rt in_tuple 0 = Some (DErr EAssert).
  Proof. vm_compute. reflexivity. Qed.
End Demo.

(** The result of a round trip is unique. *)
Lemma round_unique : forall P C H B lh lb ll h v t bs r,
  serialize P C H B lh lb 5 h v = Some (None, t, bs) -> deserialize P C H B ll 5 t bs = Some r ->
  (forall f, 5 <= f -> serialize P C H B lh lb f h v = Some (None, t, bs)) ->
  (forall f, 5 <= f -> deserialize P C H B ll f t bs = Some r) ->
  forall h2 v2, round_trip P C H B lh lb ll h v h2 v2 ->
  exists hd w, r = DOk (hd, w, length bs) /\ clean_heap P C hd = Some h2 /\ clean_val P w = Some v2.
Proof.
  intros P C H B lh lb ll h v t bs r E1 E2 M1 M2 h2 v2 [tr [bs' [hd [w [[k1 K1] [[k2 K2] [C1 C2]]]]]]].
  specialize (K1 (max 5 k1) (Nat.le_max_r _ _)). rewrite M1 in K1 by lia. inversion K1; subst tr bs'.
  specialize (K2 (max 5 k2) (Nat.le_max_r _ _)). rewrite M2 in K2 by lia. inversion K2; subst r.
  exists hd, w. auto.
Qed.

Theorem C02_sharing_refuted : ~ C02_claim nat Demo.C nat Demo.bytes Demo.lh Demo.lb Demo.ll.
Proof.
  intros CLM.
  destruct (CLM Demo.ll_ok Demo.two_empty 0) as [h2 [v2 [R [_ S]]]].
  { split; [simpl; lia|]. intros a b _ [i [k [vs [E1 E2]]]]. destruct a as [|[|[|a]]]; simpl in E1; inversion E1; subst.
    - destruct i as [|[|[|i]]]; simpl in E2; inversion E2; simpl; lia.
    - destruct i; discriminate. }
  eapply round_unique in R; [|cbv; reflexivity|cbv; reflexivity| |];
    [|intros f L; do 5 (destruct f as [|f]; [lia|]); reflexivity|intros f L; do 5 (destruct f as [|f]; [lia|]); reflexivity].
  destruct R as [hd [w [E [C1 C2]]]].
  inversion E; subst hd w. inversion C1; subst h2. inversion C2; subst v2.
  destruct (S [0] [1]) as [S1 _]. destruct S1 as [a [S1 S2]]; [exists 1; split; reflexivity|].
  simpl in S1, S2. congruence.
Qed.

Print Assumptions C01_round_trip.
Print Assumptions C02_sharing_partial.
Print Assumptions C02_no_frozen_cycle_partial.
Print Assumptions C02_sharing_refuted.
Print Assumptions C03_spawn_same.
