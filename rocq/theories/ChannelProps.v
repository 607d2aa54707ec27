(** C61: a socket channel delivers what was sent.

    Reading guide.  ChannelModel: tasks call [send] on one channel, the objects they send may change meanwhile;
    [reach h s]: [s] is a state that can be reached when the objects are [h] at the beginning.  [calls s] are the calls
    of [send] in the order they were made, with the task ([owner]), the argument ([arg]), the objects when the call was made
    ([before]) and how far it is ([at_]); [wire s] are the bytes handed to the transport.  [order s] lists the numbers of
    the calls that have written; the theorems say what this list has to do with what is received, so that it can
    be read as the order in which messages arrive.  The receiver is FramingModel's: bytes arrive in
    arbitrary pieces; [recv_all] lists what [recv] returns before deserializing; [decodes]: what
    deserialize then makes of it.  [denotes] (SerSpec): the tree of data a value stands for.

    [c = mkCall ...] with [after c = before c]: the objects were the same when the serialization of the argument was finished.
    For objects with at most [threshold] parts (100 in the code) this is so by itself ([C61_small_at_once]). *)
From Coq Require Import List NArith Arith Bool ZArith Lia.
From Verif Require Import Base FramingModel FramingProofs FramingProps SerModel SerSpec SerMachine SerProofs SerEnd SerProps ChannelModel ChannelProofs.
Import ListNotations.

Section S.
  Variables P C H : Type.
  Variable leaf_head : C -> H.
  Variable leaf_bufs : C -> list buffer.
  Variable leaf_load : H -> list buffer -> option C.
  Variable pickle : wire_header (header P H) -> bytes.
  Variable unpickle : bytes -> option (wire_header (header P H)).
  Variable cuda_chunk : nat.
  Variable compress : N.
  Variable threshold : Z.
  Notation heap := (heap P C).
  Notation reach := (reach P C H leaf_head leaf_bufs pickle cuda_chunk compress threshold).
  Notation call := (call P C H).
  Notation conn := (conn P C H).
  Notation owner := (owner P C H).
  Notation arg := (arg P C H).
  Notation before := (before P C H).
  Notation after := (after P C H).
  Notation at_ := (at_ P C H).
  Notation calls := (calls P C H).
  Notation order := (order P C H).
  Notation open := (open P C H).
  Notation wire := (wire P C H).
  Notation recv_all := (recv_all unpickle cuda_chunk).

  (** ** Specification *)
  Definition codecs : Prop := (forall w, unpickle (pickle w) = Some w) /\ 0 < cuda_chunk /\
    forall c, leaf_load (leaf_head c) (leaf_bufs c) = Some c.
  (** What [recv] returns to the program *)
  Definition decodes (m : message (header P H)) (h2 : heap) (v2 : val P) : Prop := exists hd w,
    (exists k, forall fuel, k <= fuel ->
       deserialize P C H buffer leaf_load fuel (snd (FramingModel.m_head m)) (FramingModel.m_bufs m) = Some (DOk (hd, w, length (FramingModel.m_bufs m)))) /\
    clean_heap P C hd = Some h2 /\ clean_val P w = Some v2.
  (** The message [m] is the argument of call number [k] *)
  Definition carries (s : conn) (k : nat) (m : message (header P H)) : Prop := exists c, nth_error (calls s) k = Some c /\
    (after c = before c -> forall x, denotes P C (before c) (arg c) x -> exists h2 v2, decodes m h2 v2 /\ denotes P C h2 v2 x).
  (** The number of parts of the argument exceeds the threshold: serialization goes on in a thread *)
  Definition large (h : heap) (v : val P) : Prop := exists m, slow P C H leaf_head leaf_bufs threshold h v m.

  Lemma sent_carries : codecs -> forall c o, sent P C H leaf_head leaf_bufs threshold c o -> after c = before c ->
    forall h2 v2, round_trip P C H buffer leaf_head leaf_bufs leaf_load (before c) (arg c) h2 v2 ->
    decodes (message_of P H o) h2 v2.
  Proof.
    intros _ c o SE E h2 v2 [tr [bs [hd [w [[k1 K1] [D [C1 C2]]]]]]].
    destruct (sent_serialize P C H leaf_head leaf_bufs threshold c o SE E) as [meta [tr' [bs' [-> [k2 K2]]]]].
    specialize (K1 (max k1 k2) (Nat.le_max_l _ _)). rewrite K2 in K1 by lia. inversion K1; subst.
    exists hd, w. cbn. auto.
  Qed.
  Lemma inv_carries : codecs -> forall h s, reach h s -> exists ms,
    stream pickle cuda_chunk compress ms = Some (wire s) /\ Forall2 (carries s) (order s) ms.
  Proof.
    intros CO h s R. apply inv_reach in R. destruct (i_wire _ _ _ _ _ _ _ _ _ s R) as [ms [S F]]. exists ms. split; auto.
    eapply Forall2_imp; [|exact F]. intros k m _ [c [o [E [-> SE]]]]. exists c. split; auto. intros AB x D.
    destruct (C01_round_trip P C H buffer leaf_head leaf_bufs leaf_load (proj2 (proj2 CO)) _ _ x D) as [h2 [v2 [RT D2]]].
    exists h2, v2. split; auto. eapply sent_carries; eauto.
  Qed.

  (** *** What is sent is received: every message, in the order of writing, nothing else *)
  Theorem C61_delivered : codecs -> forall h s, reach h s -> forall chunks extra, concat chunks = wire s ->
    exists ms, recv_all (length (order s) + S extra) (Reader [] chunks) = (ms, Some EEof) /\ Forall2 (carries s) (order s) ms.
  Proof.
    intros CO h s R chunks extra E. destruct (inv_carries CO h s R) as [ms [S F]]. exists ms. split; auto.
    replace (length (order s)) with (length ms) by (symmetry; clear - F; induction F; simpl; auto).
    destruct CO as [CO [CC _]]. eapply C04_stream_roundtrip; eauto.
  Qed.

  (** Also objects with shared and cyclic parts: what arrives is what serialize and deserialize make of the argument (C02) *)
  Theorem C61_graphs : codecs -> forall h s, reach h s -> forall chunks extra, concat chunks = wire s ->
    exists ms, recv_all (length (order s) + S extra) (Reader [] chunks) = (ms, Some EEof) /\
      Forall2 (fun k m => exists c, nth_error (calls s) k = Some c /\ (after c = before c -> forall h2 v2,
        round_trip P C H buffer leaf_head leaf_bufs leaf_load (before c) (arg c) h2 v2 -> decodes m h2 v2)) (order s) ms.
  Proof.
    intros CO h s R chunks extra E. pose proof (inv_reach _ _ _ _ _ _ _ _ _ _ _ R) as I.
    destruct (i_wire _ _ _ _ _ _ _ _ _ s I) as [ms [S F]]. exists ms. split.
    - replace (length (order s)) with (length ms) by (symmetry; clear - F; induction F; simpl; auto).
      pose proof CO as [CO1 [CC _]]. eapply C04_stream_roundtrip; eauto.
    - eapply Forall2_imp; [|exact F]. intros k m _ [c [o [E' [-> SE]]]]. exists c. split; auto. intros AB h2 v2 RT. eapply sent_carries; eauto.
  Qed.

  (** A cut stream: the whole frames in it *)
  Lemma stream_prefix : forall ms s p q, stream pickle cuda_chunk compress ms = Some s -> p ++ q = s ->
    p = s \/ exists n m s' f p' q', nth_error ms n = Some m /\ stream pickle cuda_chunk compress (firstn n ms) = Some s' /\
      frame pickle cuda_chunk compress m = Some f /\ f = p' ++ q' /\ q' <> [] /\ p = s' ++ p'.
  Proof.
    induction ms as [|m ms IH]; intros s p q S E; cbn in S.
    - inversion S; subst. destruct p; [auto|discriminate].
    - destruct (frame pickle cuda_chunk compress m) as [f|] eqn:F; [|discriminate].
      destruct (stream pickle cuda_chunk compress ms) as [s'|] eqn:SS; [|discriminate]. injection S as <-.
      destruct (Nat.lt_ge_cases (length p) (length f)) as [L|L].
      + right. exists 0, m, [], f, p, (skipn (length p) f). repeat split; auto.
        * assert (P1 : p = firstn (length p) f).
          { assert (Q : firstn (length p) (p ++ q) = firstn (length p) (f ++ s')) by congruence.
            rewrite !firstn_app, Nat.sub_diag, firstn_all in Q. replace (length p - length f) with 0 in Q by lia.
            cbn [firstn] in Q. now rewrite !app_nil_r in Q. }
          rewrite P1 at 1. now rewrite firstn_skipn.
        * intros Q. apply (f_equal (@length N)) in Q. rewrite skipn_length in Q. cbn in Q. lia.
      + assert (P1 : exists p1, p = f ++ p1).
        { exists (skipn (length f) p). rewrite <- (firstn_skipn (length f) p) at 1. f_equal.
          assert (Q : firstn (length f) (p ++ q) = firstn (length f) (f ++ s')) by congruence.
          rewrite !firstn_app, Nat.sub_diag, firstn_all in Q. cbn [firstn] in Q. rewrite app_nil_r in Q.
          replace (length f - length p) with 0 in Q by lia. cbn [firstn] in Q. now rewrite app_nil_r in Q. }
        destruct P1 as [p1 ->]. rewrite <- app_assoc in E. apply app_inv_head in E.
        destruct (IH _ _ _ eq_refl E) as [->|[n [m' [t [g [p' [q' [A [B [G [G2 [Q ->]]]]]]]]]]]]; [now left|].
        right. exists (S n), m', (f ++ t), g, p', q'. repeat split; auto.
        * cbn [firstn]. cbn [stream]. rewrite F, B. reflexivity.
        * now rewrite app_assoc.
  Qed.

  (** *** If the connection breaks, the first messages are received and nothing else *)
  Theorem C61_connection_cut : codecs -> forall h s, reach h s -> forall chunks rest extra, concat chunks ++ rest = wire s ->
    exists n ms, recv_all (length (order s) + S extra) (Reader [] chunks) = (ms, Some EEof) /\
      Forall2 (carries s) (firstn n (order s)) ms.
  Proof.
    intros CO h s R chunks rest extra E. destruct (inv_carries CO h s R) as [ms [S F]].
    assert (LN : length (order s) = length ms) by (clear - F; induction F; simpl; auto).
    destruct (stream_prefix _ _ _ _ S E) as [Q|[n [m [s' [f [p' [q' [A [B [G [G2 [Q Q2]]]]]]]]]]]].
    - exists (length (order s)), ms. rewrite firstn_all. split; auto. rewrite LN.
      destruct CO as [CO [CC _]]. eapply C04_stream_roundtrip; eauto.
    - exists n, (firstn n ms). split.
      + assert (L : n < length ms) by (apply nth_error_Some; congruence).
        replace (length (order s) + Datatypes.S extra) with (length (firstn n ms) + Datatypes.S (length ms - n + extra)).
        2: { rewrite firstn_length. lia. }
        destruct CO as [CO [CC _]]. eapply C05_truncated_stream; eauto.
      + clear - F. revert n. induction F; intros [|n]; cbn; constructor; auto.
  Qed.

  (** *** All or nothing, at most once *)
  Theorem C61_all_or_nothing : forall h s, reach h s ->
    NoDup (order s) /\
    (forall k, In k (order s) -> k < length (calls s)) /\
    forall k c, nth_error (calls s) k = Some c ->
      match at_ c with
      | Returned => open s = true -> In k (order s)
      | Raised written => if written then In k (order s) else ~ In k (order s)
      | Draining => In k (order s)
      | Serializing _ => ~ In k (order s)
      end.
  Proof.
    intros h s R. apply inv_reach in R. split; [apply R|]. split; [now apply (order_lt _ _ _ _ _ _ _ _ _ s R)|].
    intros k c E. pose proof (i_wrote _ _ _ _ _ _ _ _ _ s R k c E) as W.
    destruct (at_ c) as [| | |[]]; cbn in W; auto. intros O. destruct W; auto. congruence.
  Qed.

  (** *** The messages of one task arrive in the order in which it sent them *)
  Theorem C61_task_order : forall h s, reach h s -> forall l1 j l2 k l3 c d, order s = l1 ++ j :: l2 ++ k :: l3 ->
    nth_error (calls s) j = Some c -> nth_error (calls s) k = Some d -> owner c = owner d -> j < k.
  Proof. intros h s R. apply inv_reach in R. apply R. Qed.

  (** *** Small objects are serialized and written by the call itself *)
  Lemma quick_not_large : forall h v o, quick P C H leaf_head leaf_bufs threshold h v o -> ~ large h v.
  Proof.
    intros h v o Q [m' [m fuel ST ML]]. destruct Q as [ST2|m2 fuel2 m2' ST2 ML2 _]; rewrite ST in ST2; inversion ST2; subst.
    revert fuel ML. clear ST ST2. revert m2 ML2. induction fuel2 as [|f2 IH]; intros m2 ML2 fuel ML; cbn in ML2.
    - destruct (m_stack _ _ _ m2) eqn:K; [|discriminate]. destruct fuel; cbn in ML; rewrite K in ML; discriminate.
    - destruct (m_stack _ _ _ m2) eqn:K.
      + destruct fuel; cbn in ML; rewrite K in ML; discriminate.
      + destruct fuel as [|fuel]; cbn in ML; rewrite K in ML; [discriminate|].
        destruct (mstep P C H buffer leaf_head leaf_bufs h m2) as [m3|]; [|discriminate].
        destruct ((0 <? threshold) && (threshold <? Z.of_nat (m_n _ _ _ m3)))%Z; [discriminate|]. eapply IH; eauto.
  Qed.
  Lemma small_inv : forall h s, reach h s ->
    (forall k c, nth_error (calls s) k = Some c -> ~ large (before c) (arg c) -> after c = before c /\ forall m, at_ c <> Serializing m) /\
    (forall l1 j l2 k l3 c, order s = l1 ++ j :: l2 ++ k :: l3 -> k < j -> nth_error (calls s) k = Some c -> large (before c) (arg c)).
  Proof.
    intros h s R. induction R as [|s s' R [A B] ST].
    - split; intros; [destruct k; discriminate|]. destruct l1; discriminate.
    - pose proof (inv_reach _ _ _ _ _ _ _ _ _ _ _ R) as I. pose proof (order_lt _ _ _ _ _ _ _ _ _ s I) as OL.
      assert (NW : forall c, (~ large (before c) (arg c) -> after c = before c /\ forall m, at_ c <> Serializing m) ->
        forall k d, nth_error (calls s ++ [c]) k = Some d -> ~ large (before d) (arg d) -> after d = before d /\ forall m, at_ d <> Serializing m).
      { intros c X k d E. destruct (Nat.lt_ge_cases k (length (calls s))) as [L|L].
        - rewrite nth_error_app1 in E by auto. eauto.
        - rewrite nth_error_app2 in E by auto. destruct (k - length (calls s)) as [|n]; [|destruct n; discriminate].
          inversion E; subst. auto. }
      assert (NB : forall c l1 j l2 k l3 d, order s = l1 ++ j :: l2 ++ k :: l3 -> k < j -> nth_error (calls s ++ [c]) k = Some d -> large (before d) (arg d)).
      { intros c l1 j l2 k l3 d E L ND. rewrite nth_error_app1 in ND; [eapply B; eauto|].
        apply OL. rewrite E. apply in_or_app; right; right. apply in_or_app; right; now left. }
      assert (MV : forall k c hh p, nth_error (calls s) k = Some c -> (hh = after c \/ exists m, at_ c = Serializing m) -> (forall m, p <> Serializing m) ->
        forall j d, nth_error (move P C H (calls s) k hh p) j = Some d -> ~ large (before d) (arg d) -> after d = before d /\ forall m, at_ d <> Serializing m).
      { intros k c hh p E X NS j d Q. destruct (Nat.eq_dec j k) as [->|N].
        - rewrite (move_same _ _ _ _ _ _ _ _ E) in Q. inversion Q; subst. cbn. intros NL. split; auto.
          destruct (A _ _ E NL) as [A1 A2]. destruct X as [->|[m X]]; auto. exfalso. eapply A2; eauto.
        - rewrite move_other in Q by auto. eauto. }
      assert (MB : forall k hh p l1 i l2 j l3 d, order s = l1 ++ i :: l2 ++ j :: l3 -> j < i ->
        nth_error (move P C H (calls s) k hh p) j = Some d -> large (before d) (arg d)).
      { intros k hh p l1 i l2 j l3 d E L ND. destruct (Nat.eq_dec j k) as [->|N].
        - destruct (nth_error (calls s) k) as [c|] eqn:EC.
          + rewrite (move_same _ _ _ _ _ _ _ _ EC) in ND. inversion ND; subst. cbn. eapply B; eauto.
          + unfold move in ND. rewrite EC in ND. congruence.
        - rewrite move_other in ND by auto. eapply B; eauto. }
      destruct ST; cbn [ChannelModel.calls ChannelModel.order].
      + auto.
      + auto.
      + split; [apply NW; cbn; split; [reflexivity|discriminate]|].
        intros l1 j l2 k l3 c EQ L E. destruct (snoc_split _ _ _ _ _ _ _ _ EQ) as [[l3' [-> EQ']]|[-> [-> IN]]]; [eapply NB; eauto|].
        apply OL in IN. lia.
      + split; [|intros; eapply NB; eauto]. apply NW; cbn. intros _. split; auto. intros m ->. destruct H3 as [Q|[_ Q]]; discriminate.
      + split; [|intros; eapply NB; eauto]. apply NW; cbn. intros NL. exfalso. apply NL. exists m. auto.
      + split; [eapply MV; eauto; discriminate|].
        intros l1 i l2 j l3 d EQ L E. destruct (snoc_split _ _ _ _ _ _ _ _ EQ) as [[l3' [-> EQ']]|[-> [-> IN]]]; [eapply MB; eauto|].
        rewrite (move_same _ _ _ _ _ _ _ _ H0) in E. inversion E; subst. cbn. exists m. eapply i_ser; eauto.
      + split; [eapply MV; eauto|intros; eapply MB; eauto]. intros m' ->. destruct H4 as [Q|[_ Q]]; discriminate.
      + split; [eapply MV; eauto; discriminate|intros; eapply MB; eauto].
      + split; [eapply MV; eauto; discriminate|intros; eapply MB; eauto].
      + split; [eapply MV; eauto; discriminate|intros; eapply MB; eauto].
  Qed.

  (** they arrive as they were when [send] was called *)
  Theorem C61_small_at_once : forall h s, reach h s -> forall k c, nth_error (calls s) k = Some c ->
    ~ large (before c) (arg c) -> after c = before c.
  Proof. intros h s R k c E NL. eapply small_inv; eauto. Qed.

  (** and before everything that is sent later. *)
  Theorem C61_call_order_partial : forall h s, reach h s -> forall l1 j l2 k l3 c, order s = l1 ++ j :: l2 ++ k :: l3 ->
    nth_error (calls s) k = Some c -> ~ large (before c) (arg c) -> j < k.
  Proof.
    intros h s R l1 j l2 k l3 c EQ E NL. destruct (Nat.lt_trichotomy j k) as [L|[L|L]]; auto.
    - subst k. exfalso. pose proof (i_dup _ _ _ _ _ _ _ _ _ s (inv_reach _ _ _ _ _ _ _ _ _ _ _ R)) as D. rewrite EQ in D.
      apply NoDup_remove_2 in D. apply D. apply in_or_app; right. apply in_or_app; right; now left.
    - exfalso. apply NL. eapply small_inv; eauto.
  Qed.

  (** The full claims for large objects: messages arrive in the order of the calls of [send], and show the objects as they
      were at some moment. *)
  Definition call_order_claim : Prop := forall h s, reach h s -> forall l1 j l2 k l3, order s = l1 ++ j :: l2 ++ k :: l3 -> j < k.
  Definition snapshot_claim : Prop := forall h s, reach h s -> forall chunks extra, concat chunks = wire s ->
    exists ms, recv_all (length (order s) + S extra) (Reader [] chunks) = (ms, Some EEof) /\
      Forall2 (fun k m => exists c, nth_error (calls s) k = Some c /\ exists h1, In h1 (past P C H s) /\
        forall x, denotes P C h1 (arg c) x -> exists h2 v2, decodes m h2 v2 /\ denotes P C h2 v2 x) (order s) ms.
End S.

(** ** Examples: a concrete codec; primitives and leaves are numbers, the threshold is the code's *)
Module Demo.
  Notation tr := (tree nat unit).
  Definition lh (c : nat) : unit := tt.
  Definition lb (c : nat) : list buffer := [Buf false [N.of_nat c]].
  Definition ll (h : unit) (l : list buffer) : option nat :=
    match l with [Buf _ [n]] => Some (N.to_nat n) | _ => None end.
  Lemma ll_ok : forall c, ll (lh c) (lb c) = Some c.
  Proof. intros c. cbn. now rewrite Nat2N.id. Qed.

  (** numbers are written as they are *)
  Notation n_ := N.of_nat.
  Definition e_list {A} (e : A -> list N) (l : list A) : list N := n_ (length l) :: concat (map e l).
  Definition e_opt (x : option nat) : list N := match x with None => [0%N] | Some p => [1%N; n_ p] end.
  Definition e_kind (k : kind) : list N :=
    match k with KList t => [0%N; n_ t] | KTuple t => [1%N; n_ t] | KDict t => [2%N; n_ t] end.
  Definition e_head (hd : head nat unit) : list N :=
    match hd with
    | HPrim id p => [0%N; n_ id; n_ p]
    | HLeaf id _ n => [1%N; n_ id; n_ n]
    | HEmpty id => [2%N; n_ id]
    | HRef id => [3%N; n_ id]
    | HNode id k l => 4%N :: n_ id :: e_kind k ++ e_list e_opt l
    end.
  Fixpoint e_tree (t : tr) : list N := match t with T hd subs => e_head hd ++ n_ (length subs) :: concat (map e_tree subs) end.
  Definition e_bool (b : bool) : list N := [if b then 1%N else 0%N].
  Definition e_nat (n : nat) : list N := [n_ n].
  Definition pickle (w : wire_header (header nat unit)) : bytes :=
    match w with (cs, ns, (meta, t)) => e_list e_bool cs ++ e_list e_nat ns ++ e_opt meta ++ e_tree t end.

  Definition dec A := list N -> option (A * list N).
  Fixpoint d_many {A} (d : dec A) (n : nat) (b : list N) : option (list A * list N) :=
    match n with
    | 0 => Some ([], b)
    | S n => match d b with
             | Some (x, b1) => match d_many d n b1 with Some (l, b2) => Some (x :: l, b2) | None => None end
             | None => None
             end
    end.
  Definition d_nat : dec nat := fun b => match b with x :: b => Some (N.to_nat x, b) | [] => None end.
  Definition d_bool : dec bool := fun b => match b with x :: b => Some ((x =? 1)%N, b) | [] => None end.
  Definition d_opt : dec (option nat) := fun b =>
    match b with 0%N :: b => Some (None, b) | 1%N :: x :: b => Some (Some (N.to_nat x), b) | _ => None end.
  Definition d_list {A} (d : dec A) : dec (list A) := fun b => match d_nat b with Some (n, b) => d_many d n b | None => None end.
  Definition d_kind : dec kind := fun b =>
    match b with 0%N :: t :: b => Some (KList (N.to_nat t), b) | 1%N :: t :: b => Some (KTuple (N.to_nat t), b)
               | 2%N :: t :: b => Some (KDict (N.to_nat t), b) | _ => None end.
  Definition d_head : dec (head nat unit) := fun b =>
    match b with
    | 0%N :: i :: p :: b => Some (HPrim (N.to_nat i) (N.to_nat p), b)
    | 1%N :: i :: n :: b => Some (HLeaf (N.to_nat i) tt (N.to_nat n), b)
    | 2%N :: i :: b => Some (HEmpty (N.to_nat i), b)
    | 3%N :: i :: b => Some (HRef (N.to_nat i), b)
    | 4%N :: i :: b =>
        match d_kind b with
        | Some (k, b) => match d_list d_opt b with Some (l, b) => Some (HNode (N.to_nat i) k l, b) | None => None end
        | None => None
        end
    | _ => None
    end.
  Fixpoint d_tree (fuel : nat) : dec tr := fun b =>
    match fuel with
    | 0 => None
    | S f => match d_head b with
             | Some (hd, b) => match d_list (d_tree f) b with Some (l, b) => Some (T hd l, b) | None => None end
             | None => None
             end
    end.
  Definition unpickle (b : bytes) : option (wire_header (header nat unit)) :=
    match d_list d_bool b with
    | Some (cs, b1) => match d_list d_nat b1 with
      | Some (ns, b2) => match d_opt b2 with
        | Some (meta, b3) => match d_tree (length b3) b3 with Some (t, _) => Some (cs, ns, (meta, t)) | None => None end
        | None => None end
      | None => None end
    | None => None
    end.

  Definition good {A} (e : A -> list N) (d : dec A) (x : A) : Prop := forall b, d (e x ++ b) = Some (x, b).
  Lemma many_ok : forall A (e : A -> list N) (d : dec A) l, (forall x, In x l -> good e d x) ->
    forall b, d_many d (length l) (concat (map e l) ++ b) = Some (l, b).
  Proof.
    intros A e d l. induction l as [|x l IH]; intros G b; cbn [length d_many map concat]; auto.
    rewrite <- app_assoc, (G x (or_introl eq_refl)), IH; auto. intros y Q. apply G. now right.
  Qed.
  Lemma list_ok : forall A (e : A -> list N) (d : dec A) l, (forall x, In x l -> good e d x) -> good (e_list e) (d_list d) l.
  Proof.
    intros A e d l G b. unfold e_list, d_list. cbn [app d_nat]. rewrite Nat2N.id. now apply many_ok.
  Qed.
  Lemma opt_ok : forall x, good e_opt d_opt x.
  Proof. intros [p|] b; cbn; [now rewrite Nat2N.id|reflexivity]. Qed.
  Lemma head_ok : forall hd, good e_head d_head hd.
  Proof.
    intros hd b. destruct hd as [id p|id [] n|id|id|id k l]; cbn [e_head app d_head]; rewrite ?Nat2N.id; auto.
    rewrite <- app_assoc. destruct k; cbn [e_kind app d_kind]; rewrite ?Nat2N.id, (list_ok _ e_opt d_opt l (fun x _ => opt_ok x)); reflexivity.
  Qed.
  Lemma tree_ok : forall fuel t b, length (e_tree t) <= fuel -> d_tree fuel (e_tree t ++ b) = Some (t, b).
  Proof.
    induction fuel as [|fuel IH]; intros [hd subs] b L.
    - exfalso. cbn in L. rewrite app_length in L. cbn in L. lia.
    - cbn [d_tree e_tree]. rewrite <- app_assoc, head_ok. cbn [app]. unfold d_list. cbn [d_nat]. rewrite Nat2N.id.
      rewrite (many_ok _ e_tree (d_tree fuel) subs); [reflexivity|].
      intros x Q b'. apply IH. cbn [e_tree] in L. rewrite app_length in L. cbn [length] in L.
      assert (length (e_tree x) <= length (concat (map e_tree subs))); [|lia].
      clear - Q. induction subs as [|y subs IH]; [destruct Q|]. cbn. rewrite app_length.
      destruct Q as [->|Q]; [lia|]. specialize (IH Q). lia.
  Qed.
  Lemma codec : forall w, unpickle (pickle w) = Some w.
  Proof.
    intros [[cs ns] [meta t]]. unfold unpickle, pickle.
    rewrite (list_ok _ e_bool d_bool cs); [|intros [] _ b; reflexivity].
    rewrite (list_ok _ e_nat d_nat ns); [|intros x _ b; cbn; now rewrite Nat2N.id].
    rewrite opt_ok. rewrite <- (app_nil_r (e_tree t)) at 2. rewrite tree_ok by lia. reflexivity.
  Qed.
  Lemma codecs_ok : codecs nat nat unit lh lb ll pickle unpickle 4.
  Proof. split; [apply codec|]. split; [lia|apply ll_ok]. Qed.

  (** A list of 150 references to bytes objects with the content [c] *)
  Definition objs (c : nat) : heap nat nat := ONode (KList 0) (map VR (seq 1 150)) :: repeat (OLeaf c) 150.
  Definition many (c : nat) : data nat nat := Node (KList 0) (repeat (Leaf c) 150).
  Lemma objs_many : forall c, denotes nat nat (objs c) (VR 0) (many c).
  Proof.
    intros c. apply denotes_node. exists 0, (map VR (seq 1 150)). split; auto. split; auto.
    apply forall2_intro; [now rewrite map_length, seq_length, repeat_length|].
    intros i x y E1 E2. apply nth_error_In in E2 as E3. apply repeat_spec in E3. subst y.
    rewrite nth_error_map in E1. destruct (nth_error (seq 1 150) i) as [k|] eqn:EK; [|discriminate]. inversion E1; subst x.
    assert (L : i < 150).
    { rewrite <- (seq_length 150 1). apply nth_error_Some. congruence. }
    assert (k = S i). { apply (nth_error_nth _ _ 0) in EK. rewrite seq_nth in EK by auto. lia. } subst k.
    exists (S i). split; auto. unfold objs. cbn [nth_error].
    clear - L. revert i L. generalize 150. intros n. induction n as [|n IH]; intros i L; [lia|]. destruct i; cbn; auto. apply IH. lia.
  Qed.

  Notation reach := (reach nat nat unit lh lb pickle 4 0 100%Z).
  Notation mach := (mach nat unit buffer).
  Definition m0 : mach := match start nat nat unit buffer lh lb (objs 0) (VR 0) with Some (inr m) => m
    | _ => {| m_stack := []; m_ser := None; m_s := s0; m_bufs := []; m_n := 0 |} end.
  Definition m1 : mach := match mloop nat nat unit buffer lh lb 1000 (objs 0) 100 m0 with Some (Overflow m) => m | _ => m0 end.
  Lemma is_slow : slow nat nat unit lh lb 100 (objs 0) (VR 0) m1.
  Proof. apply (slow_loop _ _ _ _ _ _ _ _ _ m0 1000); vm_compute; reflexivity. Qed.
  (** what the thread makes of it when all the objects have the content [c] then *)
  Definition out (c : nat) : output nat unit buffer :=
    match mloop nat nat unit buffer lh lb 1000 (objs c) 0 m1 with
    | Some (Finished m) => match result_of nat unit buffer true m with Some o => o | None => (None, T (HEmpty 0) [], []) end
    | _ => (None, T (HEmpty 0) [], []) end.
  Definition m2 (c : nat) : mach := match mloop nat nat unit buffer lh lb 1000 (objs c) 0 m1 with Some (Finished m) => m | _ => m0 end.
  Lemma is_resumed : forall c, c <= 1 -> resumed nat nat unit lh lb (objs c) m1 (out c).
  Proof. intros c L. destruct c as [|[|c]]; [apply (resumed_loop _ _ _ _ _ _ _ _ 1000 (m2 0))|apply (resumed_loop _ _ _ _ _ _ _ _ 1000 (m2 1))|lia]; vm_compute; reflexivity. Qed.
  Definition fr (o : output nat unit buffer) : bytes := match bytes_of nat unit pickle 4 0 o with Some f => f | None => [] end.
  Lemma fr_ok : forall c, c <= 1 -> bytes_of nat unit pickle 4 0 (out c) = Some (fr (out c)).
  Proof. intros c L. destruct c as [|[|c]]; [| |lia]; vm_compute; reflexivity. Qed.
  Definition small : output nat unit buffer := (None, T (HLeaf 0 tt 1) [], lb 0).
  Lemma is_quick : quick nat nat unit lh lb 100 (objs 0) (VR 1) small.
  Proof. apply quick_leaf. vm_compute. reflexivity. Qed.
  Lemma fr_small : bytes_of nat unit pickle 4 0 small = Some (fr small).
  Proof. vm_compute. reflexivity. Qed.

  Notation mkCall := (mkCall nat nat unit).
  Notation mkConn := (mkConn nat nat unit).
  (** Task 0 sends the list, task 1 one of its items: the item arrives first. *)
  Definition overtaken : conn nat nat unit := mkConn (objs 0) [objs 0] true
    [mkCall 0 (VR 0) (objs 0) (objs 0) Draining; mkCall 1 (VR 1) (objs 0) (objs 0) Draining]
    (fr small ++ fr (out 0)) [1; 0].
  Lemma reach_overtaken : reach (objs 0) overtaken.
  Proof.
    pose (s1 := mkConn (objs 0) [objs 0] true [mkCall 0 (VR 0) (objs 0) (objs 0) (Serializing m1)] [] []).
    pose (s2 := mkConn (objs 0) [objs 0] true [mkCall 0 (VR 0) (objs 0) (objs 0) (Serializing m1);
      mkCall 1 (VR 1) (objs 0) (objs 0) Draining] (fr small) [1]).
    assert (R1 : reach (objs 0) s1).
    { eapply reach_step; [apply reach_start|]. refine (send_slow nat nat unit lh lb pickle 4 0 100 (initial nat nat unit (objs 0)) 0 (VR 0) m1 _ is_slow). intros c []. }
    assert (R2 : reach (objs 0) s2).
    { eapply reach_step; [exact R1|]. refine (send_quick nat nat unit lh lb pickle 4 0 100 s1 1 (VR 1) small _ _ is_quick fr_small eq_refl). intros c [<-|[]] Q. discriminate. }
    eapply reach_step; [exact R2|].
    refine (write nat nat unit lh lb pickle 4 0 100 s2 0 (mkCall 0 (VR 0) (objs 0) (objs 0) (Serializing m1)) m1 (out 0) (fr (out 0)) eq_refl eq_refl _ (fr_ok 0 _) eq_refl); [|lia].
    apply is_resumed. lia.
  Qed.
  (** The hypotheses of the theorems are met: both messages arrive as they were sent. *)
  Example both_arrive : exists ma mb, recv_all unpickle 4 3 (Reader [] [firstn 20 (wire _ _ _ overtaken); skipn 20 (wire _ _ _ overtaken)]) = ([ma; mb], Some EEof) /\
    (exists h2 v2, decodes nat nat unit ll ma h2 v2 /\ denotes nat nat h2 v2 (Leaf 0)) /\
    (exists h2 v2, decodes nat nat unit ll mb h2 v2 /\ denotes nat nat h2 v2 (many 0)).
  Proof.
    destruct (C61_delivered nat nat unit lh lb ll pickle unpickle 4 0 100 codecs_ok (objs 0) overtaken reach_overtaken
      [firstn 20 (wire _ _ _ overtaken); skipn 20 (wire _ _ _ overtaken)] 0) as [ms [R F]].
    { cbn [concat]. rewrite app_nil_r. apply firstn_skipn. }
    change (length (order nat nat unit overtaken) + 1) with 3 in R.
    inversion F as [|a b la lb_ [ca [Na Ca]] F1]; subst. inversion F1 as [|c d lc ld [cb [Nb Cb]] F2]; subst. inversion F2; subst.
    exists b, d. split; auto. inversion Na; subst ca. inversion Nb; subst cb. split.
    - apply Ca; auto. exists 1. split; auto.
    - apply Cb; auto. apply objs_many.
  Qed.

  (** While the thread works, all the objects of the list change. *)
  Definition torn : conn nat nat unit := mkConn (objs 1) [objs 0; objs 1] true
    [mkCall 0 (VR 0) (objs 0) (objs 1) Draining] ([] ++ fr (out 1)) [0].
  Lemma reach_torn : reach (objs 0) torn.
  Proof.
    pose (s1 := mkConn (objs 0) [objs 0] true [mkCall 0 (VR 0) (objs 0) (objs 0) (Serializing m1)] [] []).
    assert (R1 : reach (objs 0) s1).
    { eapply reach_step; [apply reach_start|]. refine (send_slow nat nat unit lh lb pickle 4 0 100 (initial nat nat unit (objs 0)) 0 (VR 0) m1 _ is_slow). intros c []. }
    pose (s2 := mkConn (objs 1) [objs 0; objs 1] true [mkCall 0 (VR 0) (objs 0) (objs 0) (Serializing m1)] [] []).
    assert (R2 : reach (objs 0) s2).
    { eapply reach_step; [exact R1|]. exact (change nat nat unit lh lb pickle 4 0 100 s1 (objs 1)). }
    eapply reach_step; [exact R2|].
    refine (write nat nat unit lh lb pickle 4 0 100 s2 0 (mkCall 0 (VR 0) (objs 0) (objs 0) (Serializing m1)) m1 (out 1) (fr (out 1)) eq_refl eq_refl _ (fr_ok 1 _) eq_refl); [|lia].
    apply is_resumed. lia.
  Qed.

  (** More fuel makes no difference *)
  Lemma dloop_more : forall bs f q r, dloop nat nat unit buffer ll f bs q = Some r -> forall f', f <= f' -> dloop nat nat unit buffer ll f' bs q = Some r.
  Proof.
    induction f as [|f IH]; intros q r E f' L; cbn in E.
    - destruct (q_stack _ _ _ q) eqn:K; [|discriminate]. destruct f'; cbn; now rewrite K.
    - destruct f' as [|f']; [lia|]. cbn. destruct (q_stack _ _ _ q) eqn:K; auto.
      destruct (dstep nat nat unit buffer ll bs q); auto. apply IH; auto. lia.
  Qed.
  Lemma deserialize_more : forall t bs f r, deserialize nat nat unit buffer ll f t bs = Some r -> forall f', f <= f' -> deserialize nat nat unit buffer ll f' t bs = Some r.
  Proof.
    intros [hd subs] bs f r E f' L. unfold deserialize in *. destruct (is_leaf nat unit (T hd subs)); auto.
    destruct (dloop nat nat unit buffer ll f bs _) as [x|] eqn:D; [|discriminate]. rewrite (dloop_more _ _ _ _ D f' L). exact E.
  Qed.
  Definition seen (m : message (header nat unit)) (i : nat) : option (sight nat nat) :=
    match deserialize nat nat unit buffer ll 1000 (snd (FramingModel.m_head m)) (FramingModel.m_bufs m) with
    | Some (DOk (hd, w, _)) =>
        match clean_heap nat nat hd, clean_val nat w with Some h2, Some v2 => look nat nat h2 v2 [i] | _, _ => None end
    | _ => None
    end.
  Lemma seen_ok : forall m h2 v2 i x, seen m i = Some x -> decodes nat nat unit ll m h2 v2 -> look nat nat h2 v2 [i] = Some x.
  Proof.
    intros m h2 v2 i x S [hd [w [[k K] [C1 C2]]]]. unfold seen in S.
    destruct (deserialize nat nat unit buffer ll 1000 (snd (FramingModel.m_head m)) (FramingModel.m_bufs m)) as [r|] eqn:D; [|discriminate].
    pose proof (deserialize_more _ _ _ _ D (max k 1000) (Nat.le_max_r _ _)) as D2.
    rewrite (K (max k 1000) (Nat.le_max_l _ _)) in D2. inversion D2; subst r. rewrite C1, C2 in S. exact S.
  Qed.
  Lemma look_many : forall c h2 v2 i, i < 150 -> denotes nat nat h2 v2 (many c) -> look nat nat h2 v2 [i] = Some (SLeaf c).
  Proof.
    intros c h2 v2 i L D. apply denotes_node in D. destruct D as [a [vs [-> [E F]]]].
    unfold look. cbn [follow]. rewrite E.
    assert (X : nth_error (repeat (Leaf c : data nat nat) 150) i = Some (Leaf c)).
    { clear - L. revert i L. generalize 150. intros n. induction n as [|n IH]; intros i L; [lia|]. destruct i; cbn; auto. apply IH. lia. }
    revert X F. generalize (repeat (Leaf c : data nat nat) 150). intros xs X F.
    assert (Y : exists v, nth_error vs i = Some v /\ denotes nat nat h2 v (Leaf c)).
    { clear - X F. revert i X. induction F as [|v y vs ys R F IH]; intros [|i] X; try discriminate; cbn in *.
      - inversion X; subst. eauto.
      - auto. }
    destruct Y as [v [Y1 Y2]]. rewrite Y1. destruct Y2 as [b [-> Y3]]. now rewrite Y3.
  Qed.
  Example torn_message : seen (message_of nat unit (out 1)) 0 = Some (SLeaf 0) /\ seen (message_of nat unit (out 1)) 149 = Some (SLeaf 1).
  Proof. split; vm_compute; reflexivity. Qed.
End Demo.

(** A message overtakes one that was sent before. *)
Theorem C61_call_order_refuted : ~ call_order_claim nat nat unit Demo.lh Demo.lb Demo.pickle 4 0 100.
Proof. intros CL. specialize (CL _ _ Demo.reach_overtaken [] 1 [] 0 [] eq_refl). lia. Qed.

(** What arrives shows a state the objects never had. *)
Theorem C61_snapshot_refuted : ~ snapshot_claim nat nat unit Demo.lh Demo.lb Demo.ll Demo.pickle Demo.unpickle 4 0 100.
Proof.
  intros CL. destruct (CL _ _ Demo.reach_torn [Demo.fr (Demo.out 1)] 0) as [ms [R F]].
  { unfold Demo.torn. generalize (Demo.fr (Demo.out 1)). intros f. cbn. apply app_nil_r. }
  assert (E : ms = [message_of nat unit (Demo.out 1)]).
  { assert (Q : recv_all Demo.unpickle 4 2 (Reader [] [Demo.fr (Demo.out 1)]) = ([message_of nat unit (Demo.out 1)], Some EEof))
      by (vm_compute; reflexivity).
    change (length (order nat nat unit Demo.torn) + 1) with 2 in R. rewrite Q in R. exact (eq_sym (f_equal fst R)). }
  destruct Demo.torn_message as [T0 T1]. rewrite E in F. clear E R. revert F T0 T1.
  generalize (message_of nat unit (Demo.out 1)). intros m F T0 T1. inversion F as [|a b la lb_ [c [Nc [h1 [IN D]]]] F1]; subst. inversion Nc; subst c. cbn [arg] in D.
  cbn [past Demo.torn] in IN.
  destruct IN as [<-|[<-|[]]]; destruct (D _ (Demo.objs_many _)) as [h2 [v2 [DC DN]]].
  - apply (Demo.look_many _ _ _ 149) in DN; [|lia]. rewrite (Demo.seen_ok _ _ _ _ _ T1 DC) in DN. discriminate.
  - apply (Demo.look_many _ _ _ 0) in DN; [|lia]. rewrite (Demo.seen_ok _ _ _ _ _ T0 DC) in DN. discriminate.
Qed.

Print Assumptions C61_delivered.
Print Assumptions C61_graphs.
Print Assumptions C61_connection_cut.
Print Assumptions C61_all_or_nothing.
Print Assumptions C61_task_order.
Print Assumptions C61_small_at_once.
Print Assumptions C61_call_order_partial.
Print Assumptions C61_call_order_refuted.
Print Assumptions C61_snapshot_refuted.
