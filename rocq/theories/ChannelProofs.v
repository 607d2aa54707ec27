(** Invariants of the channel model. *)
From Coq Require Import List NArith Arith Bool ZArith Lia.
From Verif Require Import Base FramingModel FramingProofs SerModel SerSpec SerMachine SerProofs SerEnd SerProps ChannelModel.
Import ListNotations.

Section S.
  Variables P C H : Type.
  Variable leaf_head : C -> H.
  Variable leaf_bufs : C -> list buffer.
  Variable pickle : wire_header (header P H) -> bytes.
  Variable cuda_chunk : nat.
  Variable compress : N.
  Variable threshold : Z.
  Notation heap := (heap P C).
  Notation val := (val P).
  Notation mach := (mach P H buffer).
  Notation output := (output P H buffer).
  Notation call := (call P C H).
  Notation conn := (conn P C H).
  Notation quick := (quick P C H leaf_head leaf_bufs threshold).
  Notation slow := (slow P C H leaf_head leaf_bufs threshold).
  Notation resumed := (resumed P C H leaf_head leaf_bufs).
  Notation step := (step P C H leaf_head leaf_bufs pickle cuda_chunk compress threshold).
  Notation reach := (reach P C H leaf_head leaf_bufs pickle cuda_chunk compress threshold).
  Notation serialize := (serialize P C H buffer leaf_head leaf_bufs).
  Notation mloop := (mloop P C H buffer leaf_head leaf_bufs).
  Notation steps := (SerMachine.steps P C H buffer leaf_head leaf_bufs).
  Notation stream := (stream pickle cuda_chunk compress).
  Notation mkCall := (mkCall P C H).
  Notation owner := (owner P C H).
  Notation arg := (arg P C H).
  Notation before := (before P C H).
  Notation after := (after P C H).
  Notation at_ := (at_ P C H).
  Notation calls := (calls P C H).
  Notation order := (order P C H).
  Notation open := (open P C H).
  Notation wire := (wire P C H).
  Notation move := (move P C H).
  Notation message_of := (message_of P H).

  (** ** The serializer *)
  Lemma mloop_fin : forall h z fuel m m', mloop fuel h z m = Some (Finished m') ->
    exists k, steps h m k m' /\ m_stack _ _ _ m' = [].
  Proof.
    induction fuel as [|fuel IH]; simpl; intros m m' E.
    - destruct (m_stack _ _ _ m) eqn:K; [|discriminate]. inversion E; subst. exists 0. split; auto. constructor.
    - destruct (m_stack _ _ _ m) eqn:K.
      + inversion E; subst. exists 0. split; auto; constructor.
      + destruct (mstep P C H buffer leaf_head leaf_bufs h m) as [m1|] eqn:S1; [|discriminate].
        destruct ((0 <? z) && (z <? Z.of_nat (m_n _ _ _ m1)))%Z; [discriminate|].
        destruct (IH _ _ E) as [k [S2 Z0]]. exists (S k). split; auto.
        econstructor; eauto. rewrite K. discriminate.
  Qed.
  Lemma mloop_over : forall h z fuel m m', mloop fuel h z m = Some (Overflow m') -> exists k, steps h m k m'.
  Proof.
    induction fuel as [|fuel IH]; simpl; intros m m' E.
    - destruct (m_stack _ _ _ m) eqn:K; discriminate.
    - destruct (m_stack _ _ _ m) eqn:K; [discriminate|].
      destruct (mstep P C H buffer leaf_head leaf_bufs h m) as [m1|] eqn:S1; [|discriminate].
      assert (N : m_stack _ _ _ m <> []) by (rewrite K; discriminate).
      destruct ((0 <? z) && (z <? Z.of_nat (m_n _ _ _ m1)))%Z.
      + inversion E; subst. exists 1. econstructor; eauto. constructor.
      + destruct (IH _ _ E) as [k S2]. exists (S k). econstructor; eauto.
  Qed.

  (** What a call has serialized *)
  Definition sent (c : call) (o : output) : Prop :=
    quick (before c) (arg c) o /\ after c = before c \/
    exists m, slow (before c) (arg c) m /\ resumed (after c) m o.

  Lemma result_tree : forall b m o, result_of P H buffer b m = Some o ->
    exists meta tr bs, o = (meta, tr, bs) /\ m_ser _ _ _ m = Some tr /\ m_bufs _ _ _ m = bs.
  Proof. unfold result_of. intros b m o E. destruct (m_ser _ _ _ m); [|discriminate]. inversion E; subst. eauto 6. Qed.

  Lemma sent_serialize : forall c o, sent c o -> after c = before c ->
    exists meta tr bs, o = (meta, tr, bs) /\ exists k, forall fuel, k <= fuel -> serialize fuel (before c) (arg c) = Some (None, tr, bs).
  Proof.
    intros c o S E. unfold sent in S. rewrite E in S. unfold SerModel.serialize.
    destruct S as [[Q _]|[m [SL R]]].
    - destruct Q as [ST|m fuel m' ST ML RS]; rewrite ST.
      + unfold start in ST. destruct o as [[meta tr] bs]. exists meta, tr, bs. split; auto. exists 0. intros fuel _.
        destruct (arg c) as [p|a]; [inversion ST; subst; reflexivity|].
        destruct (serial_single P C H buffer leaf_head leaf_bufs (before c) (s0) a) as [[[hd [b|[|x l]]] s]|]; inversion ST; subst; reflexivity.
      + destruct (result_tree _ _ _ RS) as [meta [tr [bs [-> [T1 T2]]]]]. exists meta, tr, bs. split; auto.
        destruct (mloop_fin _ _ _ _ _ ML) as [k [S1 Z0]]. exists k. intros f L.
        rewrite (mloop_zero P C H buffer leaf_head leaf_bufs _ _ _ _ S1 Z0 f L). unfold result_of. rewrite T1, T2. reflexivity.
    - destruct SL as [m0 fuel ST ML]. rewrite ST. destruct R as [fuel' m2 ML2 RS].
      destruct (result_tree _ _ _ RS) as [meta [tr [bs [-> [T1 T2]]]]]. exists meta, tr, bs. split; auto.
      destruct (mloop_over _ _ _ _ _ ML) as [k1 S1]. destruct (mloop_fin _ _ _ _ _ ML2) as [k2 [S2 Z0]].
      pose proof (steps_trans P C H buffer leaf_head leaf_bufs _ _ _ _ _ _ S1 S2) as S3. exists (k1 + k2). intros f L.
      rewrite (mloop_zero P C H buffer leaf_head leaf_bufs _ _ _ _ S3 Z0 f L). unfold result_of. rewrite T1, T2. reflexivity.
  Qed.

  (** ** Calls *)
  Lemma move_len : forall l k h p, length (move l k h p) = length l.
  Proof.
    intros l k h p. unfold ChannelModel.move. destruct (nth_error l k) as [c|] eqn:E; auto.
    assert (L : k < length l) by (apply nth_error_Some; congruence).
    rewrite app_length, firstn_length. cbn [length]. rewrite skipn_length. lia.
  Qed.
  Lemma move_same : forall l k h p c, nth_error l k = Some c ->
    nth_error (move l k h p) k = Some (mkCall (owner c) (arg c) (before c) h p).
  Proof.
    intros l k h p c E. unfold ChannelModel.move. rewrite E.
    assert (L : k < length l) by (apply nth_error_Some; congruence).
    rewrite nth_error_app2 by (rewrite firstn_length; lia). rewrite firstn_length.
    replace (k - min k (length l)) with 0 by lia. reflexivity.
  Qed.
  Lemma move_other : forall l k h p j, j <> k -> nth_error (move l k h p) j = nth_error l j.
  Proof.
    intros l k h p j N. unfold ChannelModel.move. destruct (nth_error l k) as [c|] eqn:E; auto.
    assert (L : k < length l) by (apply nth_error_Some; congruence).
    rewrite <- (firstn_skipn k l) at 3.
    destruct (Nat.lt_ge_cases j k) as [Q|Q].
    - rewrite !nth_error_app1 by (rewrite firstn_length; lia). reflexivity.
    - rewrite !nth_error_app2 by (rewrite firstn_length; lia). rewrite firstn_length.
      replace (j - min k (length l)) with (S (j - S k)) by lia. cbn [nth_error].
      assert (SK : skipn k l = c :: skipn (S k) l).
      { clear - E. revert k E. induction l as [|x l IH]; intros [|k] E; simpl in *; try discriminate; [congruence|auto]. }
      rewrite SK. reflexivity.
  Qed.

  (** ** The stream *)
  Lemma stream_app : forall ms s m f, stream ms = Some s -> frame pickle cuda_chunk compress m = Some f ->
    stream (ms ++ [m]) = Some (s ++ f).
  Proof.
    induction ms as [|x ms IH]; simpl; intros s m f E F.
    - inversion E; subst. rewrite F. now rewrite app_nil_r.
    - destruct (frame pickle cuda_chunk compress x) as [g|]; [|discriminate].
      destruct (stream ms) as [s'|] eqn:E1; [|discriminate]. inversion E; subst.
      rewrite (IH _ _ _ eq_refl F). now rewrite app_assoc.
  Qed.

  (** ** The invariant *)
  Definition wrote (s : conn) (p : phase mach) (yes : Prop) : Prop :=
    match p with
    | Serializing _ | Raised false => ~ yes
    | Draining | Raised true => yes
    | Returned => yes \/ open s = false
    end.
  Record inv (s : conn) : Prop := {
    i_wire : exists ms, stream ms = Some (wire s) /\
      Forall2 (fun k m => exists c o, nth_error (calls s) k = Some c /\ m = message_of o /\ sent c o) (order s) ms;
    i_ser : forall k c m, nth_error (calls s) k = Some c -> at_ c = Serializing m -> slow (before c) (arg c) m;
    i_wrote : forall k c, nth_error (calls s) k = Some c -> wrote s (at_ c) (In k (order s));
    i_dup : NoDup (order s);
    i_task : forall j k c d, j < k -> nth_error (calls s) j = Some c -> nth_error (calls s) k = Some d ->
      owner c = owner d -> busy P H (at_ c) = false;
    i_ord : forall l1 j l2 k l3 c d, order s = l1 ++ j :: l2 ++ k :: l3 ->
      nth_error (calls s) j = Some c -> nth_error (calls s) k = Some d -> owner c = owner d -> j < k }.

  Lemma order_lt : forall s, inv s -> forall k, In k (order s) -> k < length (calls s).
  Proof.
    intros s I k K. destruct (i_wire s I) as [ms [_ F]]. clear I. revert K. induction F as [|x y l l' R F IH]; intros K; [destruct K|].
    destruct K as [->|K]; auto. destruct R as [c [o [E _]]]. apply nth_error_Some. congruence.
  Qed.

  (** Adding to the end of the order keeps the order per task, if all earlier writes of the task are of earlier calls *)
  Lemma snoc_split : forall A (l : list A) x l1 j l2 k l3, l ++ [x] = l1 ++ j :: l2 ++ k :: l3 ->
    (exists l3', l3 = l3' ++ [x] /\ l = l1 ++ j :: l2 ++ k :: l3') \/ (k = x /\ l3 = [] /\ In j l).
  Proof.
    intros A l x l1 j l2 k l3 E. destruct (@exists_last _ (k :: l3)) as [q [y Q]]; [discriminate|].
    destruct l3 as [|z l3].
    - right. assert (R : l ++ [x] = (l1 ++ j :: l2) ++ [k]) by (rewrite <- app_assoc; exact E).
      apply app_inj_tail in R. destruct R as [-> ->]. repeat split; auto. apply in_or_app; right; now left.
    - left. destruct (@exists_last _ (z :: l3)) as [q' [y' Q']]; [discriminate|]. rewrite Q' in *.
      assert (R : l ++ [x] = (l1 ++ j :: l2 ++ k :: q') ++ [y']) by (rewrite <- !app_assoc; cbn; rewrite <- !app_assoc; exact E).
      apply app_inj_tail in R. destruct R as [-> ->]. exists q'. auto.
  Qed.

  Lemma nodup_snoc : forall (l : list nat) x, NoDup l -> ~ In x l -> NoDup (l ++ [x]).
  Proof.
    intros l x N NI. induction N as [|y l NY N IH]; simpl; [repeat constructor; intros []|].
    constructor; [|apply IH; intros Q; apply NI; now right].
    rewrite in_app_iff. intros [Q|[Q|[]]]; auto. apply NI. now left.
  Qed.
  Lemma Forall2_imp : forall A B (R Q : A -> B -> Prop) l l', (forall a b, In a l -> R a b -> Q a b) -> Forall2 R l l' -> Forall2 Q l l'.
  Proof. intros A B R Q l l' I F. induction F; constructor; [apply I; auto; now left|]. apply IHF. intros. apply I; auto. now right. Qed.

  (** A step that only moves one call, without writing *)
  Lemma inv_move : forall s k c h p b hh pp, inv s -> nth_error (calls s) k = Some c ->
    (forall m, p <> Serializing m) ->
    (In k (order s) -> h = after c) ->
    wrote s p (In k (order s)) -> (open s = false -> b = false) ->
    (busy P H p = true -> busy P H (at_ c) = true) ->
    inv (mkConn P C H hh pp b (move (calls s) k h p) (wire s) (order s)).
  Proof.
    intros s k c h p b hh pp I E NS HA W OB BZ.
    assert (ND : forall j d, nth_error (move (calls s) k h p) j = Some d ->
      j = k /\ d = mkCall (owner c) (arg c) (before c) h p \/ j <> k /\ nth_error (calls s) j = Some d).
    { intros j d Q. destruct (Nat.eq_dec j k) as [->|N].
      - rewrite (move_same _ _ _ _ _ E) in Q. left. split; congruence.
      - rewrite move_other in Q by auto. auto. }
    split; cbn [ChannelModel.calls ChannelModel.order ChannelModel.wire].
    - destruct (i_wire s I) as [ms [S F]]. exists ms. split; auto. eapply Forall2_imp; [|exact F].
      intros j m IN [c' [o [E' [M SE]]]]. destruct (Nat.eq_dec j k) as [->|N].
      + assert (c' = c) by congruence. subst c'. exists (mkCall (owner c) (arg c) (before c) h p), o.
        split; [now apply move_same|]. split; auto. rewrite (HA IN).
        destruct SE as [[Q A]|[m0 [SL R]]]; [left|right; exists m0]; auto.
      + exists c', o. rewrite move_other by auto. auto.
    - intros j d m Q A. destruct (ND _ _ Q) as [[-> ->]|[N Q']]; [exfalso; eapply NS; eauto|]. eapply i_ser; eauto.
    - intros j d Q. destruct (ND _ _ Q) as [[-> ->]|[N Q']].
      + cbn [ChannelModel.at_]. destruct p as [| | |[]]; cbn in *; auto. destruct W; auto.
      + pose proof (i_wrote s I _ _ Q') as V. destruct (at_ d) as [| | |[]]; cbn in *; auto. destruct V; auto.
    - apply I.
    - intros i j d e L Q1 Q2 O. destruct (ND _ _ Q1) as [[-> ->]|[N1 Q1']]; destruct (ND _ _ Q2) as [[-> ->]|[N2 Q2']]; cbn in *.
      + lia.
      + destruct (busy P H p) eqn:BB; auto. specialize (BZ eq_refl). pose proof (i_task s I k j c e L E Q2' O). congruence.
      + eapply i_task; eauto.
      + eapply i_task; eauto.
    - intros l1 i l2 j l3 d e EQ Q1 Q2 O.
      destruct (ND _ _ Q1) as [[-> ->]|[N1 Q1']]; destruct (ND _ _ Q2) as [[-> ->]|[N2 Q2']]; cbn in *.
      + eapply i_ord; eauto.
      + eapply i_ord; eauto.
      + eapply i_ord; eauto.
      + eapply i_ord; eauto.
  Qed.

  (** A new call *)
  Lemma inv_new : forall s c b, inv s -> idle P C H s (owner c) ->
    (forall m, at_ c = Serializing m -> slow (before c) (arg c) m) ->
    match at_ c with Draining | Raised true => False | Returned => open s = false | _ => True end ->
    b = open s ->
    forall hh pp, inv (mkConn P C H hh pp b (calls s ++ [c]) (wire s) (order s)).
  Proof.
    intros s c b I ID SL W -> hh pp. pose proof (order_lt s I) as OL.
    assert (ND : forall j d, nth_error (calls s ++ [c]) j = Some d ->
      j = length (calls s) /\ d = c \/ j < length (calls s) /\ nth_error (calls s) j = Some d).
    { intros j d Q. destruct (Nat.lt_ge_cases j (length (calls s))) as [L|L].
      - rewrite nth_error_app1 in Q by auto. auto.
      - rewrite nth_error_app2 in Q by auto. left. destruct (j - length (calls s)) as [|n] eqn:D; [|destruct n; discriminate].
        cbn in Q. split; [lia|congruence]. }
    split; cbn [ChannelModel.calls ChannelModel.order ChannelModel.wire].
    - destruct (i_wire s I) as [ms [S F]]. exists ms. split; auto. eapply Forall2_imp; [|exact F].
      intros j m IN [c' [o [E' R]]]. exists c', o. split; auto. rewrite nth_error_app1; auto.
    - intros j d m Q A. destruct (ND _ _ Q) as [[-> ->]|[N Q']]; [auto|]. eapply i_ser; eauto.
    - intros j d Q. destruct (ND _ _ Q) as [[-> ->]|[N Q']].
      + assert (NI : ~ In (length (calls s)) (order s)) by (intros Q'; apply OL in Q'; lia).
        destruct (at_ c) as [| | |[]]; cbn in *; tauto.
      + exact (i_wrote s I _ _ Q').
    - apply I.
    - intros i j d e L Q1 Q2 O. destruct (ND _ _ Q1) as [[-> ->]|[N1 Q1']]; destruct (ND _ _ Q2) as [[-> ->]|[N2 Q2']]; try lia.
      + apply ID; auto. eapply nth_error_In; eauto.
      + exact (i_task s I i j d e L Q1' Q2' O).
    - intros l1 i l2 j l3 d e EQ Q1 Q2 O.
      assert (In i (order s)) by (rewrite EQ; apply in_or_app; right; now left).
      assert (In j (order s)) by (rewrite EQ; apply in_or_app; right; right; apply in_or_app; right; now left).
      assert (i < length (calls s)) by auto. assert (j < length (calls s)) by auto.
      destruct (ND _ _ Q1) as [[-> ->]|[N1 Q1']]; [lia|]; destruct (ND _ _ Q2) as [[-> ->]|[N2 Q2']]; [lia|]. eapply i_ord; eauto.
  Qed.

  (** A call writes *)
  Lemma inv_write : forall s k c d o f hh pp, inv s -> nth_error (calls s) k = Some c -> busy P H (at_ c) = true ->
    ~ In k (order s) -> d = mkCall (owner c) (arg c) (before c) hh Draining -> sent d o ->
    frame pickle cuda_chunk compress (message_of o) = Some f ->
    inv (mkConn P C H hh pp (open s) (move (calls s) k hh Draining) (wire s ++ f) (order s ++ [k])).
  Proof.
    intros s k c d o f hh pp I E BZ NI -> SE FR.
    assert (ND : forall j d, nth_error (move (calls s) k hh Draining) j = Some d ->
      j = k /\ d = mkCall (owner c) (arg c) (before c) hh Draining \/ j <> k /\ nth_error (calls s) j = Some d).
    { intros j d Q. destruct (Nat.eq_dec j k) as [->|N].
      - rewrite (move_same _ _ _ _ _ E) in Q. left. split; congruence.
      - rewrite move_other in Q by auto. auto. }
    split; cbn [ChannelModel.calls ChannelModel.order ChannelModel.wire].
    - destruct (i_wire s I) as [ms [S F]]. exists (ms ++ [message_of o]). split; [now apply stream_app|].
      apply Forall2_app.
      + eapply Forall2_imp; [|exact F]. intros j m IN [c' [o' [E' R]]]. exists c', o'. split; auto.
        rewrite move_other; auto. intros ->. contradiction.
      + constructor; [|constructor]. exists (mkCall (owner c) (arg c) (before c) hh Draining), o. split; [now apply move_same|]. split; [reflexivity|exact SE].
    - intros j d m Q A. destruct (ND _ _ Q) as [[-> ->]|[N Q']]; [discriminate|]. eapply i_ser; eauto.
    - intros j d Q. destruct (ND _ _ Q) as [[-> ->]|[N Q']].
      + cbn. apply in_or_app. right. now left.
      + pose proof (i_wrote s I _ _ Q') as V.
        assert (EQ : In j (order s ++ [k]) <-> In j (order s)).
        { rewrite in_app_iff. split; [intros [?|[?|[]]]; auto; congruence|auto]. }
        destruct (at_ d) as [| | |[]]; cbn in *; rewrite EQ; auto.
    - apply nodup_snoc; [apply I|auto].
    - intros i j d e L Q1 Q2 O. destruct (ND _ _ Q1) as [[-> ->]|[N1 Q1']]; destruct (ND _ _ Q2) as [[-> ->]|[N2 Q2']]; cbn in *.
      + lia.
      + pose proof (i_task s I k j c e L E Q2' O). congruence.
      + eapply i_task; eauto.
      + eapply i_task; eauto.
    - intros l1 i l2 j l3 d e EQ Q1 Q2 O. destruct (snoc_split _ _ _ _ _ _ _ _ EQ) as [[l3' [-> EQ']]|[-> [-> IN]]].
      + assert (X1 : exists d', nth_error (calls s) i = Some d' /\ owner d' = owner d).
        { destruct (ND _ _ Q1) as [[-> ->]|[N1 Q1']]; eauto. }
        assert (X2 : exists e', nth_error (calls s) j = Some e' /\ owner e' = owner e).
        { destruct (ND _ _ Q2) as [[-> ->]|[N2 Q2']]; eauto. }
        destruct X1 as [d' [X1 Y1]], X2 as [e' [X2 Y2]]. eapply (i_ord s I _ _ _ _ _ d' e'); eauto. congruence.
      + destruct (ND _ _ Q1) as [[-> ->]|[N1 Q1']]; [contradiction|].
        destruct (ND _ _ Q2) as [[_ ->]|[N2 Q2']]; [|congruence]. cbn in O.
        destruct (Nat.lt_trichotomy i k) as [L|[L|L]]; auto; [congruence|].
        pose proof (i_task s I k i c d L E Q1' (eq_sym O)). congruence.
  Qed.

  Lemma inv_reach : forall h s, reach h s -> inv s.
  Proof.
    induction 1 as [|s s' R I ST].
    - split; cbn; try (intros; destruct k; discriminate); try (intros; destruct j; discriminate).
      + exists []. split; [reflexivity|constructor].
      + constructor.
    - destruct ST.
      + destruct I. split; auto.
      + destruct I as [A B W D T0 O]. split; auto. intros k c E. specialize (W k c E). destruct (at_ c) as [| | |[]]; cbn in *; auto.
      + (* quick *)
        set (c := mkCall i v (objects P C H s) (objects P C H s) Draining) in *.
        (* first the call as if it had still to write *)
        assert (SE : sent c o) by (left; split; auto).
        pose proof (order_lt s I) as OL.
        assert (ND : forall j d, nth_error (calls s ++ [c]) j = Some d ->
          j = length (calls s) /\ d = c \/ j < length (calls s) /\ nth_error (calls s) j = Some d).
        { intros j d Q. destruct (Nat.lt_ge_cases j (length (calls s))) as [L|L].
          - rewrite nth_error_app1 in Q by auto. auto.
          - rewrite nth_error_app2 in Q by auto. left. destruct (j - length (calls s)) as [|n] eqn:D; [|destruct n; discriminate].
            cbn in Q. split; [lia|congruence]. }
        assert (CN : nth_error (calls s ++ [c]) (length (calls s)) = Some c).
        { rewrite nth_error_app2 by lia. now rewrite Nat.sub_diag. }
        assert (NI : ~ In (length (calls s)) (order s)) by (intros Q'; apply OL in Q'; lia).
        split; cbn [ChannelModel.calls ChannelModel.order ChannelModel.wire].
        * destruct (i_wire s I) as [ms [S F]]. exists (ms ++ [message_of o]). split; [now apply stream_app|].
          apply Forall2_app.
          -- eapply Forall2_imp; [|exact F]. intros j m IN [c' [o' [E' R']]]. exists c', o'. split; auto.
             rewrite nth_error_app1; auto.
          -- constructor; [|constructor]. exists c, o. auto.
        * intros j d m Q A. destruct (ND _ _ Q) as [[-> ->]|[N Q']]; [discriminate|]. eapply i_ser; eauto.
        * intros j d Q. destruct (ND _ _ Q) as [[-> ->]|[N Q']].
          -- cbn. apply in_or_app. right. now left.
          -- pose proof (i_wrote s I _ _ Q') as V.
             assert (EQ : In j (order s ++ [length (calls s)]) <-> In j (order s)).
             { rewrite in_app_iff. split; [intros [?|[?|[]]]; auto; lia|auto]. }
             destruct (at_ d) as [| | |[]]; cbn in *; rewrite EQ; auto.
        * apply nodup_snoc; [apply I|auto].
        * intros a b d e L Q1 Q2 O. destruct (ND _ _ Q1) as [[-> ->]|[N1 Q1']]; destruct (ND _ _ Q2) as [[-> ->]|[N2 Q2']]; try lia.
          -- match goal with ID : idle _ _ _ _ _ |- _ => apply ID; [eapply nth_error_In; eauto|exact O] end.
          -- exact (i_task s I a b d e L Q1' Q2' O).
        * intros l1 a l2 b l3 d e EQ Q1 Q2 O. destruct (snoc_split _ _ _ _ _ _ _ _ EQ) as [[l3' [-> EQ']]|[-> [-> IN]]].
          -- assert (In a (order s)) by (rewrite EQ'; apply in_or_app; right; now left).
             assert (In b (order s)) by (rewrite EQ'; apply in_or_app; right; right; apply in_or_app; right; now left).
             assert (a < length (calls s)) by auto. assert (b < length (calls s)) by auto.
             destruct (ND _ _ Q1) as [[-> ->]|[N1 Q1']]; [lia|]; destruct (ND _ _ Q2) as [[-> ->]|[N2 Q2']]; [lia|]. eapply i_ord; eauto.
          -- now apply OL.
      + apply inv_new; auto; cbn.
        * intros m ->. destruct H3 as [Q|[_ Q]]; discriminate.
        * destruct H3 as [->|[Q ->]]; auto.
      + apply inv_new; auto; cbn; auto. intros m' Q. inversion Q; subst. auto.
      + eapply inv_write; eauto; [rewrite H1; reflexivity| |].
        * pose proof (i_wrote s I _ _ H0) as V. rewrite H1 in V. exact V.
        * right. exists m. split; [|exact H2]. exact (i_ser s I k c m H0 H1).
      + pose proof (i_wrote s I _ _ H0) as V. rewrite H1 in V.
        eapply inv_move; eauto.
        * intros m' ->. destruct H4 as [Q|[_ Q]]; discriminate.
        * intros Q. contradiction.
        * destruct H4 as [->|[Q ->]]; cbn; auto.
        * intros Q. destruct H4 as [->|[_ ->]]; discriminate.
      + pose proof (i_wrote s I _ _ H0) as V. rewrite H1 in V.
        eapply inv_move; eauto; cbn; auto; discriminate.
      + pose proof (i_wrote s I _ _ H0) as V. rewrite H1 in V.
        eapply inv_move; eauto; cbn; auto; discriminate.
      + pose proof (i_wrote s I _ _ H0) as V. rewrite H1 in V.
        eapply inv_move; eauto; cbn; auto; discriminate.
  Qed.
End S.
