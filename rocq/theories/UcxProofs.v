(** Lemmas about UcxModel. *)
From Coq Require Import List NArith Arith Bool Lia Permutation.
From Verif Require Import Base FramingModel FramingProofs UcxModel.
Import ListNotations.

Section Proofs.
  Variable H : Type.
  Variable pickle : wire_header H -> bytes.
  Variable unpickle : bytes -> option (wire_header H).
  Variable compress : N.
  Variable registry : nat -> option nat.
  Variable copy_content : H -> option (list nat).
  Notation message := (message H).
  Notation item := (item H).
  Notation packets := (packets pickle compress).
  Notation message_packets := (message_packets pickle compress).
  Notation sends := (sends pickle compress).
  Notation sstep := (sstep pickle compress).
  Notation recv_message := (recv_message unpickle).
  Notation read_one := (read_one unpickle registry copy_content).
  Notation read_loop := (read_loop unpickle registry copy_content).
  Notation read_all := (read_all unpickle registry copy_content).

  (** *** Receiving is monotone in what has arrived *)

  Lemma take_more : forall n w x,
    match take n w with
    | Got a r => take n (w ++ x) = Got a (r ++ x)
    | Mismatch => take n (w ++ x) = Mismatch
    | Wait => True
    end.
  Proof. intros n [|p w] x; simpl; auto. destruct (length p =? n); auto. Qed.

  Lemma take_buffers_more : forall cs ns w x,
    match take_buffers cs ns w with
    | Got a r => take_buffers cs ns (w ++ x) = Got a (r ++ x)
    | Mismatch => take_buffers cs ns (w ++ x) = Mismatch
    | Wait => True
    end.
  Proof.
    induction cs as [|c cs IH]; intros [|n ns] w x; cbn [take_buffers]; auto.
    destruct (n =? 0).
    - specialize (IH ns w x). destruct (take_buffers cs ns w); auto; now rewrite IH.
    - pose proof (take_more n w x) as T. destruct (take n w) as [p w1| |]; auto; rewrite T; auto.
      specialize (IH ns w1 x). destruct (take_buffers cs ns w1); auto; now rewrite IH.
  Qed.

  Lemma take_payload_more : forall ns w x,
    match take_payload ns w with
    | Got a r => take_payload ns (w ++ x) = Got a (r ++ x)
    | Mismatch => take_payload ns (w ++ x) = Mismatch
    | Wait => True
    end.
  Proof.
    induction ns as [|n ns IH]; intros w x; cbn [take_payload]; auto.
    pose proof (take_more n w x) as T. destruct (take n w) as [p w1| |]; auto; rewrite T; auto.
    specialize (IH w1 x). destruct (take_payload ns w1); auto; now rewrite IH.
  Qed.

  Lemma recv_more : forall w x,
    match recv_message w with
    | Got a r => recv_message (w ++ x) = Got a (r ++ x)
    | Mismatch => recv_message (w ++ x) = Mismatch
    | Wait => True
    end.
  Proof.
    intros w x. unfold UcxModel.recv_message.
    pose proof (take_more 11 w x) as T. destruct (take 11 w) as [info w1| |]; auto; rewrite T; auto.
    destruct (get_header_length info) as [len|]; auto.
    pose proof (take_more (N.to_nat len) w1 x) as T2.
    destruct (take (N.to_nat len) w1) as [h w2| |]; auto; rewrite T2; auto.
    destruct (unpickle h) as [[[cs ns] hd]|]; auto.
    pose proof (take_buffers_more cs ns w2 x) as T3.
    destruct (take_buffers cs ns w2); auto; now rewrite T3.
  Qed.

  Lemma read_one_more : forall w x,
    match read_one w with
    | Got a r => read_one (w ++ x) = Got a (r ++ x)
    | Mismatch => read_one (w ++ x) = Mismatch
    | Wait => True
    end.
  Proof.
    intros w x. unfold UcxModel.read_one.
    pose proof (recv_more w x) as T. destruct (recv_message w) as [m w1| |]; auto; rewrite T; auto.
    destruct (copy_content (m_head m)) as [uids|]; auto.
    destruct (lookup_all registry uids) as [sizes|]; auto.
    pose proof (take_payload_more sizes w1 x) as T2.
    destruct (take_payload sizes w1); auto; now rewrite T2.
  Qed.

  (** *** Reading one well-formed item *)
  Hypothesis codec : forall h, unpickle (pickle h) = Some h.

  Definition nonempty (m : message) : Prop := forall b, In b (m_bufs m) -> b_data b <> [].

  Lemma take_ok : forall p w, take (length p) (p :: w) = Got p w.
  Proof. intros. simpl. now rewrite Nat.eqb_refl. Qed.

  Lemma take_buffers_ok : forall bs w, (forall b, In b bs -> b_data b <> []) ->
    take_buffers (map b_cuda bs) (map (fun b => length (b_data b)) bs) (map b_data bs ++ w) = Got bs w.
  Proof.
    induction bs as [|[c d] bs IH]; intros w NE; auto.
    cbn [map take_buffers b_cuda b_data app].
    destruct (length d =? 0) eqn:Z.
    - apply Nat.eqb_eq in Z. exfalso. apply (NE (Buf c d)); [now left|].
      destruct d; [reflexivity|discriminate].
    - rewrite take_ok. rewrite IH; auto. intros b I. apply NE. now right.
  Qed.

  Lemma take_payload_ok : forall ps w, take_payload (map (@length N) ps) (ps ++ w) = Got ps w.
  Proof.
    induction ps as [|p ps IH]; intros w; auto.
    cbn [map take_payload app]. rewrite take_ok. now rewrite IH.
  Qed.

  Lemma recv_ok_ucx : forall m ps w, message_packets m = Some ps -> nonempty m ->
    recv_message (ps ++ w) = Got m w.
  Proof.
    intros m ps w E NE. unfold UcxModel.message_packets in E.
    set (header := pickle _) in E.
    destruct (pack 8 (N.of_nat (length header))) as [len|] eqn:P8; [|discriminate].
    destruct (pack 2 compress) as [cmp|] eqn:P2; [|discriminate].
    injection E as <-. unfold UcxModel.recv_message. cbn [app].
    assert (L : length (version :: len ++ cmp) = 11).
    { cbn [length]. rewrite app_length, (pack_length _ _ _ P8), (pack_length _ _ _ P2). reflexivity. }
    rewrite <- L, take_ok. cbn [get_header_length]. rewrite N.eqb_refl.
    assert (F : firstn 8 (len ++ cmp) = len).
    { rewrite <- (pack_length _ _ _ P8) at 1. rewrite firstn_app, Nat.sub_diag. simpl.
      now rewrite app_nil_r, firstn_all. }
    rewrite F, (pack_value _ _ _ P8), Nat2N.id, take_ok.
    unfold header. rewrite codec. rewrite take_buffers_ok by exact NE.
    destruct m; reflexivity.
  Qed.

  Lemma lookup_all_spec : forall uids sizes,
    map registry uids = map Some sizes -> lookup_all registry uids = Some sizes.
  Proof.
    induction uids as [|u us IH]; intros [|n ns] E; try discriminate; auto.
    cbn [map] in E. injection E as E1 E2. cbn [lookup_all]. now rewrite E1, (IH _ E2).
  Qed.

  (** What an item has to satisfy to be read back. *)
  Definition readable (i : item) : Prop :=
    match i with
    | Plain m => nonempty m /\ copy_content (m_head m) = None
    | CopyTo m payload => nonempty m /\
        exists uids, copy_content (m_head m) = Some uids /\
                     map registry uids = map (fun p => Some (length p)) payload
    end.
  Definition arrives (i : item) : received H :=
    match i with Plain m => Delivered m | CopyTo m payload => Copied m payload end.

  Lemma read_one_ok : forall i ps w, packets i = Some ps -> readable i ->
    read_one (ps ++ w) = Got (arrives i) w.
  Proof.
    intros [m|m payload] ps w E R; unfold UcxModel.read_one; cbn [packets UcxModel.packets] in E.
    - destruct R as [NE C]. rewrite (recv_ok_ucx _ _ _ E NE), C. reflexivity.
    - destruct R as (NE & uids & C & L).
      destruct (message_packets m) as [mp|] eqn:M; [|discriminate]. injection E as <-.
      rewrite <- app_assoc, (recv_ok_ucx _ _ _ M NE), C.
      rewrite (lookup_all_spec uids (map (@length N) payload)) by now rewrite map_map.
      rewrite take_payload_ok. reflexivity.
  Qed.

  Lemma packets_two : forall i ps, packets i = Some ps -> 2 <= length ps.
  Proof.
    assert (M : forall m ps, message_packets m = Some ps -> 2 <= length ps).
    { intros m ps E. unfold UcxModel.message_packets in E.
      destruct (pack 8 (N.of_nat _)); [|discriminate].
      destruct (pack 2 compress); [|discriminate]. injection E as <-. cbn [length]. lia. }
    intros [m|m payload] ps E; simpl in E; [now apply M in E|].
    destruct (message_packets m) eqn:Em; [|discriminate]. injection E as <-.
    apply M in Em. rewrite app_length. lia.
  Qed.

  Lemma read_one_part : forall i ps a b, packets i = Some ps -> readable i ->
    ps = a ++ b -> b <> [] -> read_one a = Wait.
  Proof.
    intros i ps a b E R -> NE. pose proof (read_one_more a b) as M.
    pose proof (read_one_ok i _ [] E R) as O. rewrite app_nil_r in O.
    destruct (read_one a) as [r rest| |]; auto.
    - rewrite M in O. injection O as _ O. destruct rest, b; try discriminate. now elim NE.
    - rewrite M in O. discriminate.
  Qed.

  (** A list of calls and the packets of each. *)
  Inductive laid : list item -> list packet -> Prop :=
  | laid_nil : laid [] []
  | laid_cons : forall i ps is w, packets i = Some ps -> laid is w -> laid (i :: is) (ps ++ w).
  Lemma laid_snoc : forall is w i ps, laid is w -> packets i = Some ps -> laid (is ++ [i]) (w ++ ps).
  Proof.
    intros is w i ps L E. induction L; cbn [app].
    - rewrite <- (app_nil_r ps). now constructor; [|constructor].
    - rewrite <- app_assoc. now constructor.
  Qed.

  Lemma read_loop_laid : forall is w rest fuel, laid is w -> (forall i, In i is -> readable i) ->
    read_loop (length is + fuel) (w ++ rest) =
    let (rs, st) := read_loop fuel rest in (map arrives is ++ rs, st).
  Proof.
    intros is w rest fuel L. induction L as [|i ps is w E L IH]; intros R; cbn [app map length Nat.add].
    - now destruct (read_loop fuel rest).
    - rewrite <- app_assoc. cbn [UcxModel.read_loop].
      rewrite (read_one_ok i ps _ E) by (apply R; now left).
      rewrite IH by (intros; apply R; now right).
      pose proof (packets_two _ _ E) as T. destruct ps as [|p ps]; [cbn [length] in T; lia|].
      cbn [app]. now destruct (read_loop fuel rest).
  Qed.

  Lemma laid_length : forall is w, laid is w -> 2 * length is <= length w.
  Proof.
    induction 1 as [|i ps is w E L IH]; cbn [length]; try lia.
    apply packets_two in E. rewrite app_length. lia.
  Qed.

  (** Whole items and then the beginning of one more. *)
  Lemma read_all_laid : forall is w, laid is w -> (forall i, In i is -> readable i) ->
    read_all w = (map arrives is, Idle).
  Proof.
    intros is w L R. unfold UcxModel.read_all.
    pose proof (laid_length _ _ L).
    replace (S (length w)) with (length is + S (length w - length is)) by lia.
    rewrite <- (app_nil_r w) at 2. rewrite (read_loop_laid is w []) by assumption.
    cbn [UcxModel.read_loop]. now rewrite app_nil_r.
  Qed.

  Lemma read_all_laid_part : forall is w i ps a b, laid is w -> (forall i, In i is -> readable i) ->
    packets i = Some ps -> readable i -> ps = a ++ b -> a <> [] -> b <> [] ->
    read_all (w ++ a) = (map arrives is, Midway).
  Proof.
    intros is w i ps a b L R E Ri P NA NB. unfold UcxModel.read_all.
    pose proof (laid_length _ _ L). rewrite app_length.
    replace (S (length w + length a)) with (length is + S (length w + length a - length is)) by lia.
    rewrite (read_loop_laid is w a) by assumption.
    cbn [UcxModel.read_loop]. rewrite (read_one_part i ps a b) by assumption.
    destruct a; [now elim NA|]. now rewrite app_nil_r.
  Qed.

  (** Whatever follows whole items, they are read first. *)
  Lemma read_all_laid_any : forall is w rest, laid is w -> (forall i, In i is -> readable i) ->
    exists rs st, read_all (w ++ rest) = (map arrives is ++ rs, st).
  Proof.
    intros is w rest L R. unfold UcxModel.read_all.
    pose proof (laid_length _ _ L). rewrite app_length.
    replace (S (length w + length rest)) with (length is + S (length w + length rest - length is)) by lia.
    rewrite (read_loop_laid is w rest) by assumption.
    destruct (read_loop _ rest) as [rs st]. now exists rs, st.
  Qed.

  (** *** The sending side *)

  Definition live (s : sender H) : list (job H) := s_serializing s ++ s_queue s.
  Definition returned (tr : list (event H)) (id : nat) : Prop := exists o, In (Returned id o) tr.
  Definition sooner (tr : list (event H)) (a b : nat) : Prop :=
    exists t1 t2, tr = t1 ++ t2 /\ returned t1 a /\ called t2 b.
  Definition before (l : list nat) (a b : nat) : Prop :=
    exists l1 l2, l = l1 ++ l2 /\ In a l1 /\ In b l2.
  Definition interrupted (tr : list (event H)) : Prop :=
    exists id i k ps, In (Called id i) tr /\ In (Returned id (Cancelled k)) tr /\
      packets i = Some ps /\ 0 < k < length ps.

  Lemma sooner_snoc : forall tr e a b, sooner (tr ++ [e]) a b ->
    sooner tr a b \/ (returned tr a /\ exists i, e = Called b i).
  Proof.
    intros tr e a b (t1 & t2 & E & R & i & C).
    destruct (exists_last (l := t2)) as (t2' & e' & ->).
    { intros ->. contradiction. }
    rewrite app_assoc in E. apply app_inj_tail in E. destruct E as [-> <-].
    apply in_app_or in C. destruct C as [C|[C|[]]].
    - left. exists t1, t2'. split; [reflexivity|]. split; [assumption|now exists i].
    - right. split; [|now exists i]. destruct R as [o R]. exists o. apply in_or_app. now left.
  Qed.

  Lemma before_snoc : forall l x a b, before l a b -> before (l ++ [x]) a b.
  Proof.
    intros l x a b (l1 & l2 & -> & A & B). exists l1, (l2 ++ [x]).
    rewrite app_assoc. split; [reflexivity|]. split; [assumption|]. apply in_or_app. now left.
  Qed.

  Lemma NoDup_snoc : forall (l : list nat) x, NoDup l -> ~ In x l -> NoDup (l ++ [x]).
  Proof.
    intros l x N X. apply NoDup_rev in N. rewrite <- (rev_involutive (l ++ [x])), rev_app_distr.
    apply NoDup_rev. cbn [rev app]. constructor; auto. now rewrite <- in_rev.
  Qed.

  (** [tail]: what lies on the wire behind the whole items. *)
  Inductive tail_ok (s : sender H) : list packet -> Prop :=
  | tail_none : tail_ok s []
  | tail_head : forall id i sent todo q,
      s_queue s = Job id i sent todo :: q -> sent <> [] -> todo <> [] -> tail_ok s sent
  | tail_cut : forall id i ps a b, s_up s = false -> In (Called id i) (s_trace s) ->
      packets i = Some ps -> ps = a ++ b -> a <> [] -> b <> [] -> tail_ok s a.

  Record Inv (s : sender H) (full : list (nat * item)) (tl : list packet) : Prop := {
    i_wire : exists w, laid (map snd full) w /\ s_wire s = w ++ tl;
    i_tail : tail_ok s tl;
    i_idle : s_up s = true -> s_queue s = [] -> tl = [];
    i_head : s_up s = true -> forall id i sent todo q, s_queue s = Job id i sent todo :: q ->
       sent = [] /\ tl = [] \/ todo = [] /\ tl = [] \/
       (sent <> [] /\ todo <> [] /\ (tl = sent));
    i_jobs : forall j, In j (live s) -> In (Called (j_id j) (j_item j)) (s_trace s) /\
       packets (j_item j) = Some (j_sent j ++ j_todo j);
    i_fresh : forall j, In j (s_serializing s) -> j_sent j = [];
    i_rest : forall j q, s_queue s = j :: q -> forall j', In j' q -> j_sent j' = [];
    i_live : NoDup (map j_id (live s));
    i_open : forall j, In j (live s) -> ~ returned (s_trace s) (j_id j);
    i_full_job : forall j, In j (live s) -> (In (j_id j) (map fst full) <-> j_todo j = []);
    i_nodup : NoDup (map fst full);
    i_called : forall id i, In (id, i) full -> In (Called id i) (s_trace s);
    i_returned : forall id, returned (s_trace s) id -> called (s_trace s) id;
    i_sent : forall id, In (Returned id Sent) (s_trace s) -> In id (map fst full);
    i_end : forall id i o, In (id, i) full -> In (Returned id o) (s_trace s) ->
       o = Sent \/ o = ChannelClosed \/ exists ps, packets i = Some ps /\ o = Cancelled (length ps);
    i_order : forall a b, In a (map fst full) -> In b (map fst full) -> sooner (s_trace s) a b ->
       before (map fst full) a b;
    i_once : forall id i i', In (Called id i) (s_trace s) -> In (Called id i') (s_trace s) -> i = i'
  }.

  Lemma inv_start : Inv sender0 [] [].
  Proof.
    constructor; unfold live; cbn [s_serializing s_queue s_wire s_up s_trace sender0 map app];
      try (intros; contradiction); try (intros; discriminate); auto.
    - exists []. split; [constructor|reflexivity].
    - constructor.
    - constructor.
    - constructor.
    - intros id [o []].
  Qed.

  Lemma not_interrupted_snoc : forall tr e, ~ interrupted (tr ++ e) -> ~ interrupted tr.
  Proof.
    intros tr e N (id & i & k & ps & A & B & C). apply N. exists id, i, k, ps.
    rewrite !in_app_iff. auto.
  Qed.

  Ltac proj := cbn [s_serializing s_queue s_wire s_up s_trace] in *.

  Lemma tail_trace : forall s s' tl, tail_ok s tl -> s_queue s' = s_queue s ->
    (s_up s = false -> s_up s' = false) ->
    (forall e, In e (s_trace s) -> In e (s_trace s')) -> tail_ok s' tl.
  Proof.
    intros s s' tl T Q U I. destruct T.
    - constructor.
    - eapply tail_head; [rewrite Q; eassumption| |]; assumption.
    - eapply tail_cut; eauto.
  Qed.

  (** A call returns. *)
  Lemma inv_end : forall s s' full tl j o l1 l2,
    Inv s full tl ->
    live s = l1 ++ j :: l2 -> live s' = l1 ++ l2 ->
    s_wire s' = s_wire s -> s_trace s' = s_trace s ++ [Returned (j_id j) o] ->
    (o = Sent -> j_todo j = []) ->
    (j_todo j = [] -> o = Sent \/ o = ChannelClosed \/ o = Cancelled (length (j_sent j))) ->
    tail_ok s' tl ->
    (s_up s' = true -> s_queue s' = [] -> tl = []) ->
    (s_up s' = true -> forall id i sent todo q, s_queue s' = Job id i sent todo :: q ->
       sent = [] /\ tl = [] \/ todo = [] /\ tl = [] \/ (sent <> [] /\ todo <> [] /\ tl = sent)) ->
    (forall j, In j (s_serializing s') -> j_sent j = []) ->
    (forall j q, s_queue s' = j :: q -> forall j', In j' q -> j_sent j' = []) ->
    Inv s' full tl.
  Proof.
    intros s s' full tl j o l1 l2 I L L' W T OS OD TO ID HD FR RE.
    assert (Sub : forall x, In x (live s') -> In x (live s)).
    { intros x. rewrite L, L', !in_app_iff. cbn [In]. tauto. }
    assert (Ij : In j (live s)). { rewrite L, in_app_iff. cbn [In]. auto. }
    assert (ND : ~ In (j_id j) (map j_id (l1 ++ l2)) /\ NoDup (map j_id (l1 ++ l2))).
    { pose proof (i_live _ _ _ I) as ND. rewrite L, map_app in ND. cbn [map] in ND.
      rewrite map_app. split; [now apply NoDup_remove_2 in ND|now apply NoDup_remove_1 in ND]. }
    destruct ND as [NI ND].
    assert (Tin : forall e, In e (s_trace s) -> In e (s_trace s')).
    { intros e E. rewrite T, in_app_iff. auto. }
    constructor; auto.
    - rewrite W. apply (i_wire _ _ _ I).
    - intros x X. destruct (i_jobs _ _ _ I x (Sub x X)). auto.
    - now rewrite L'.
    - intros x X [o' R]. rewrite T, in_app_iff in R. destruct R as [R|[R|[]]].
      + apply (i_open _ _ _ I x (Sub x X)). now exists o'.
      + injection R as E _. apply NI. rewrite E. apply in_map. now rewrite <- L'.
    - intros x X. now apply (i_full_job _ _ _ I), Sub.
    - apply (i_nodup _ _ _ I).
    - intros id i F. apply Tin. now apply (i_called _ _ _ I).
    - intros id [o' R]. rewrite T, in_app_iff in R. destruct R as [R|[R|[]]].
      + destruct (i_returned _ _ _ I id) as [i C]; [now exists o'|]. exists i. auto.
      + injection R as <- _. exists (j_item j). apply Tin. now apply (i_jobs _ _ _ I).
    - intros id R. rewrite T, in_app_iff in R. destruct R as [R|[R|[]]].
      + now apply (i_sent _ _ _ I).
      + injection R as <- E. apply (i_full_job _ _ _ I); auto.
    - intros id i o' F R. rewrite T, in_app_iff in R. destruct R as [R|[R|[]]].
      + now apply (i_end _ _ _ I id).
      + injection R as <- <-.
        assert (D : j_todo j = []).
        { apply (i_full_job _ _ _ I); auto. change (j_id j) with (fst (j_id j, i)). now apply in_map. }
        destruct (OD D) as [E|[E|E]]; auto. right. right.
        destruct (i_jobs _ _ _ I j Ij) as [Cj Pj].
        rewrite (i_once _ _ _ I _ _ _ (i_called _ _ _ I _ _ F) Cj).
        rewrite D, app_nil_r in Pj. exists (j_sent j). auto.
    - intros a b A B S. rewrite T in S. apply sooner_snoc in S. destruct S as [S|[_ [i S]]]; [|discriminate].
      now apply (i_order _ _ _ I).
    - intros id i i' A B. rewrite T, in_app_iff in A, B.
      destruct A as [A|[A|[]]]; [|discriminate]. destruct B as [B|[B|[]]]; [|discriminate].
      now apply (i_once _ _ _ I id).
  Qed.

  Lemma inv_full_called : forall s full tl id, Inv s full tl -> In id (map fst full) -> called (s_trace s) id.
  Proof.
    intros s full tl id I F. apply in_map_iff in F. destruct F as ([x i] & <- & F).
    exists i. now apply (i_called _ _ _ I).
  Qed.

  Lemma todo_or_sent : forall s full tl j, Inv s full tl -> In j (live s) -> j_sent j = [] -> j_todo j <> [].
  Proof.
    intros s full tl j I J E D. destruct (i_jobs _ _ _ I j J) as [_ P].
    rewrite E, D in P. apply packets_two in P. cbn [app length] in P. lia.
  Qed.

  Lemma inv_step : forall s s' full tl, sstep s s' -> Inv s full tl -> ~ interrupted (s_trace s') ->
    exists full' tl', Inv s' full' tl'.
  Proof.
    intros s s' full tl St I NI. destruct St.
    - (* refused *)
      exists full, tl.
      assert (Sp : forall tr' (e e' : event H), tr' ++ [e; e'] = (tr' ++ [e]) ++ [e']).
      { intros. now rewrite <- app_assoc. }
      assert (NR : ~ returned tr id). { intros R. now apply (i_returned _ _ _ I) in R. }
      constructor; unfold live; proj; try (exact (i_wire _ _ _ I) || exact (i_fresh _ _ _ I) ||
        exact (i_rest _ _ _ I) || exact (i_live _ _ _ I) || exact (i_nodup _ _ _ I) ||
        exact (i_head _ _ _ I) || exact (i_idle _ _ _ I) || exact (i_full_job _ _ _ I)).
      + eapply tail_trace; [exact (i_tail _ _ _ I)|reflexivity|auto|].
        intros. proj. apply in_or_app. auto.
      + intros j J. destruct (i_jobs _ _ _ I j J) as [A B]. proj. rewrite in_app_iff. auto.
      + intros j J [o R]. rewrite in_app_iff in R. destruct R as [R|[R|[R|[]]]]; [|discriminate|].
        * apply (i_open _ _ _ I j J). now exists o.
        * injection R as R _. destruct (i_jobs _ _ _ I j J) as [A B]. apply H0. rewrite R. eexists; exact A.
      + intros id' i F. rewrite in_app_iff. left. now apply (i_called _ _ _ I).
      + intros id' [o R]. rewrite in_app_iff in R. destruct R as [R|[R|[R|[]]]]; [|discriminate|].
        * destruct (i_returned _ _ _ I id') as [i C]; [now exists o|]. exists i. rewrite in_app_iff. auto.
        * injection R as <- _. exists (Plain m). rewrite in_app_iff. cbn [In]. auto.
      + intros id' R. rewrite in_app_iff in R. destruct R as [R|[R|[R|[]]]]; try discriminate.
        now apply (i_sent _ _ _ I).
      + intros id' i o F R. rewrite in_app_iff in R. destruct R as [R|[R|[R|[]]]]; try discriminate.
        * now apply (i_end _ _ _ I id').
        * injection R as <- <-. auto.
      + intros a b A B S. rewrite Sp in S. apply sooner_snoc in S. destruct S as [S|[_ [i S]]]; [|discriminate].
        apply sooner_snoc in S. destruct S as [S|[_ [i S]]].
        * now apply (i_order _ _ _ I).
        * injection S as <- _. exfalso. apply H0. apply (inv_full_called _ _ _ _ I B).
      + intros id' i i' A B. rewrite in_app_iff in A, B.
        destruct A as [A|[A|[A|[]]]]; try discriminate; destruct B as [B|[B|[B|[]]]]; try discriminate.
        * now apply (i_once _ _ _ I id').
        * injection B as <- _. exfalso. apply H0. now exists i.
        * injection A as <- _. exfalso. apply H0. now exists i'.
        * congruence.
    - (* call *)
      exists full, tl.
      assert (NR : ~ returned tr id). { intros R. now apply (i_returned _ _ _ I) in R. }
      constructor; unfold live; proj; try (exact (i_wire _ _ _ I) || 
        exact (i_rest _ _ _ I) || exact (i_nodup _ _ _ I) ||
        exact (i_head _ _ _ I) || exact (i_idle _ _ _ I)).
      + eapply tail_trace; [exact (i_tail _ _ _ I)|reflexivity|auto|].
        intros. proj. apply in_or_app. auto.
      + intros j J. cbn [app In] in J. destruct J as [<-|J].
        * cbn [j_id j_item j_sent j_todo app]. rewrite in_app_iff. cbn [In]. auto.
        * destruct (i_jobs _ _ _ I j J) as [A B]. proj. rewrite in_app_iff. auto.
      + intros j [<-|J]; [reflexivity|now apply (i_fresh _ _ _ I)].
      + cbn [app map j_id]. constructor; [|exact (i_live _ _ _ I)].
        intros F. apply in_map_iff in F. destruct F as (j & E & J).
        destruct (i_jobs _ _ _ I j J) as [A B]. apply H0. exists (j_item j). now rewrite <- E.
      + intros j J [o R]. rewrite in_app_iff in R. destruct R as [R|[R|[]]]; [|discriminate].
        cbn [app In] in J. destruct J as [<-|J].
        * apply NR. now exists o.
        * apply (i_open _ _ _ I j J). now exists o.
      + intros j J. cbn [app In] in J. destruct J as [<-|J]; [|now apply (i_full_job _ _ _ I)].
        cbn [j_id j_todo]. split.
        * intros F. exfalso. apply H0. apply (inv_full_called _ _ _ _ I F).
        * intros ->. apply packets_two in H2. cbn [length] in H2. lia.
      + intros id' i' F. rewrite in_app_iff. left. now apply (i_called _ _ _ I).
      + intros id' [o R]. rewrite in_app_iff in R. destruct R as [R|[R|[]]]; [|discriminate].
        destruct (i_returned _ _ _ I id') as [i' C]; [now exists o|]. exists i'. rewrite in_app_iff. auto.
      + intros id' R. rewrite in_app_iff in R. destruct R as [R|[R|[]]]; try discriminate.
        now apply (i_sent _ _ _ I).
      + intros id' i' o F R. rewrite in_app_iff in R. destruct R as [R|[R|[]]]; try discriminate.
        now apply (i_end _ _ _ I id').
      + intros a b A B S. apply sooner_snoc in S. destruct S as [S|[_ [i' S]]].
        * now apply (i_order _ _ _ I).
        * injection S as <- _. exfalso. apply H0. apply (inv_full_called _ _ _ _ I B).
      + intros id' i1 i2 A B. rewrite in_app_iff in A, B.
        destruct A as [A|[A|[]]]; destruct B as [B|[B|[]]].
        * now apply (i_once _ _ _ I id').
        * injection B as <- _. exfalso. apply H0. now exists i1.
        * injection A as <- _. exfalso. apply H0. now exists i2.
        * congruence.
    - (* lock *)
      exists full, tl.
      assert (P : Permutation (live (Sender (ser1 ++ j :: ser2) q w up tr))
                              (live (Sender (ser1 ++ ser2) (q ++ [j]) w up tr))).
      { unfold live. proj. rewrite <- !app_assoc. apply Permutation_app_head. cbn [app].
        rewrite app_assoc. apply Permutation_cons_append. }
      assert (Sub : forall x, In x (live (Sender (ser1 ++ ser2) (q ++ [j]) w up tr)) ->
                              In x (live (Sender (ser1 ++ j :: ser2) q w up tr))).
      { intros x X. eapply Permutation_in; [apply Permutation_sym, P|exact X]. }
      assert (Fj : j_sent j = []).
      { apply (i_fresh _ _ _ I). proj. rewrite in_app_iff. cbn [In]. auto. }
      constructor; proj; try (exact (i_wire _ _ _ I) || exact (i_nodup _ _ _ I) ||
        exact (i_called _ _ _ I) || exact (i_returned _ _ _ I) || exact (i_sent _ _ _ I) ||
        exact (i_end _ _ _ I) || exact (i_order _ _ _ I) || exact (i_once _ _ _ I)).
      + destruct (i_tail _ _ _ I); proj.
        * constructor.
        * subst q. eapply tail_head; proj; [reflexivity| |]; eassumption.
        * eapply tail_cut; proj; eassumption.
      + intros _ E. destruct q; discriminate.
      + intros U id i sent todo q' E. destruct q as [|j0 q0].
        * cbn [app] in E. injection E as -> <-. left. split; [exact Fj|].
          apply (i_idle _ _ _ I); auto.
        * cbn [app] in E. injection E as -> <-. apply (i_head _ _ _ I U id i sent todo q0). reflexivity.
      + intros x X. apply (i_jobs _ _ _ I). auto.
      + intros x X. apply (i_fresh _ _ _ I). proj. rewrite in_app_iff in *. cbn [In]. tauto.
      + intros j0 q' E x X. destruct q as [|j1 q0]; cbn [app] in E; injection E as <- <-; [contradiction|].
        rewrite in_app_iff in X. destruct X as [X|[<-|[]]]; [|exact Fj].
        eapply (i_rest _ _ _ I); proj; [reflexivity|exact X].
      + eapply Permutation_NoDup; [apply Permutation_map, P|exact (i_live _ _ _ I)].
      + intros x X. apply (i_open _ _ _ I). auto.
      + intros x X. apply (i_full_job _ _ _ I). auto.
    - (* packet *)
      set (j := Job id i sent (p :: todo)) in *.
      assert (Ij : In j (live (Sender ser (j :: q) w true tr))).
      { unfold live. proj. rewrite in_app_iff. cbn [In]. auto. }
      destruct (i_jobs _ _ _ I j Ij) as [Cj Pj]. cbn [j j_id j_item j_sent j_todo] in Cj, Pj. proj.
      assert (E : tl = sent).
      { destruct (i_head _ _ _ I eq_refl id i sent (p :: todo) q eq_refl) as [[-> ->]|[[X _]|[_ [_ X]]]];
          auto. discriminate. }
      subst tl. destruct (i_wire _ _ _ I) as (w0 & LW & EW). proj. subst w.
      assert (Nf : ~ In id (map fst full)).
      { intros F. apply (i_full_job _ _ _ I j Ij) in F. discriminate. }
      assert (Oth : forall x, In x (live (Sender ser (Job id i (sent ++ [p]) todo :: q) ((w0 ++ sent) ++ [p]) true tr)) ->
                x = Job id i (sent ++ [p]) todo \/ (In x (live (Sender ser (j :: q) (w0 ++ sent) true tr)) /\ j_id x <> id)).
      { intros x X. pose proof (i_live _ _ _ I) as ND. unfold live in *. proj.
        rewrite map_app in ND. cbn [map j_id j] in ND. apply NoDup_remove_2 in ND.
        rewrite <- map_app in ND. rewrite in_app_iff in X |- *. cbn [In] in X |- *.
        assert (K : In x (ser ++ q) -> j_id x <> id).
        { intros K E. apply ND. rewrite <- E. now apply in_map. }
        rewrite in_app_iff in K. destruct X as [X|[X|X]]; [right|left; congruence|right]; auto. }
      assert (Lv : map j_id (live (Sender ser (Job id i (sent ++ [p]) todo :: q) ((w0 ++ sent) ++ [p]) true tr))
                   = map j_id (live (Sender ser (j :: q) (w0 ++ sent) true tr))).
      { unfold live. proj. rewrite !map_app. reflexivity. }
      destruct todo as [|p2 todo].
      + exists (full ++ [(id, i)]), [].
        constructor; proj; try (exact (i_returned _ _ _ I) || exact (i_once _ _ _ I) || exact (i_fresh _ _ _ I)).
        * exists ((w0 ++ sent) ++ [p]). split; [|now rewrite app_nil_r].
          rewrite map_app, <- app_assoc. cbn [map snd]. apply laid_snoc; auto.
        * constructor.
        * auto.
        * intros _ id' i' sent' todo' q' E. injection E as <- <- <- <- <-. auto.
        * intros x X. apply Oth in X. destruct X as [->|[X _]].
          -- cbn [j_id j_item j_sent j_todo]. rewrite <- app_assoc. auto.
          -- apply (i_jobs _ _ _ I x X).
        * intros j0 q' E. injection E as <- <-. apply (i_rest _ _ _ I j q eq_refl).
        * rewrite Lv. exact (i_live _ _ _ I).
        * intros x X. apply Oth in X. destruct X as [->|[X _]].
          -- exact (i_open _ _ _ I j Ij).
          -- apply (i_open _ _ _ I x X).
        * intros x X. rewrite map_app, in_app_iff. cbn [map fst In]. apply Oth in X. destruct X as [->|[X D]].
          -- cbn [j_id j_todo]. tauto.
          -- rewrite <- (i_full_job _ _ _ I x X). split; [|auto]. intros [?|[?|[]]]; auto. congruence.
        * rewrite map_app. cbn [map fst]. apply NoDup_snoc; auto. exact (i_nodup _ _ _ I).
        * intros id' i' F. rewrite in_app_iff in F. destruct F as [F|[F|[]]].
          -- now apply (i_called _ _ _ I).
          -- injection F as <- <-. exact Cj.
        * intros id' R. rewrite map_app, in_app_iff. left. now apply (i_sent _ _ _ I).
        * intros id' i' o F R. rewrite in_app_iff in F. destruct F as [F|[F|[]]].
          -- now apply (i_end _ _ _ I id').
          -- injection F as <- <-. exfalso. apply (i_open _ _ _ I j Ij). now exists o.
        * intros a b A B S. rewrite map_app in A, B |- *. rewrite in_app_iff in A, B. cbn [map fst In] in *.
          destruct A as [A|[<-|[]]].
          -- destruct B as [B|[<-|[]]].
             ++ apply before_snoc. now apply (i_order _ _ _ I).
             ++ exists (map fst full), [id]. cbn [In]. auto.
          -- exfalso. destruct S as (t1 & t2 & E & [o R] & _).
             apply (i_open _ _ _ I j Ij). exists o. cbn [j j_id]. proj. rewrite E, in_app_iff. auto.
      + exists full, (sent ++ [p]).
        constructor; proj; try (exact (i_returned _ _ _ I) || exact (i_once _ _ _ I) || exact (i_fresh _ _ _ I) ||
          exact (i_nodup _ _ _ I) || exact (i_called _ _ _ I) || exact (i_sent _ _ _ I) || exact (i_end _ _ _ I) ||
          exact (i_order _ _ _ I)).
        * exists w0. split; auto. now rewrite app_assoc.
        * eapply tail_head; proj; [reflexivity| |discriminate]. destruct sent; discriminate.
        * discriminate.
        * intros _ id' i' sent' todo' q' E. injection E as <- <- <- <- <-. right. right.
          split; [destruct sent; discriminate|]. split; [discriminate|auto].
        * intros x X. apply Oth in X. destruct X as [->|[X _]].
          -- cbn [j_id j_item j_sent j_todo]. rewrite <- app_assoc. auto.
          -- apply (i_jobs _ _ _ I x X).
        * intros j0 q' E. injection E as <- <-. apply (i_rest _ _ _ I j q eq_refl).
        * rewrite Lv. exact (i_live _ _ _ I).
        * intros x X. apply Oth in X. destruct X as [->|[X _]].
          -- exact (i_open _ _ _ I j Ij).
          -- apply (i_open _ _ _ I x X).
        * intros x X. apply Oth in X. destruct X as [->|[X D]].
          -- cbn [j_id j_todo]. split; [tauto|discriminate].
          -- apply (i_full_job _ _ _ I x X).
    - (* done *)
      exists full, tl. eapply (inv_end _ _ _ _ (Job id i sent []) Sent ser q I); unfold live; proj; auto.
      + destruct (i_tail _ _ _ I); proj.
        * constructor.
        * injection H0 as <- <- <- <- <-. congruence.
        * eapply tail_cut; proj; [ | apply in_or_app; left; eassumption | | | | ]; eauto.
      + intros -> ->. destruct (i_head _ _ _ I eq_refl id i sent [] [] eq_refl) as [[_ E]|[[_ E]|[_ [E _]]]]; auto.
        congruence.
      + intros -> id' i' sent' todo' q' ->. left.
        split; [change (j_sent (Job id' i' sent' todo') = []); eapply (i_rest _ _ _ I); proj; [reflexivity|now left]|].
        destruct (i_head _ _ _ I eq_refl id i sent [] _ eq_refl) as [[_ E]|[[_ E]|[_ [E _]]]]; auto.
        congruence.
      + exact (i_fresh _ _ _ I).
      + intros j q' -> x X. eapply (i_rest _ _ _ I); proj; [reflexivity|now right].
    - (* error *)
      exists full, tl. eapply (inv_end _ _ _ _ (Job id i sent todo) ChannelClosed ser q I); unfold live; proj; auto;
        try discriminate.
      + destruct (i_tail _ _ _ I); proj.
        * constructor.
        * injection H1 as <- <- <- <- <-.
          assert (J : In (Job id i sent todo) (live (Sender ser (Job id i sent todo :: q) w up tr))).
          { unfold live. proj. rewrite in_app_iff. cbn [In]. auto. }
          destruct (i_jobs _ _ _ I _ J) as [C P]. cbn [j_id j_item j_sent j_todo] in *. proj.
          eapply tail_cut; proj; [ | apply in_or_app; left; eassumption | | | | ]; eauto.
        * eapply tail_cut; proj; [ | apply in_or_app; left; eassumption | | | | ]; eauto.
      + exact (i_fresh _ _ _ I).
      + intros j q' -> x X. eapply (i_rest _ _ _ I); proj; [reflexivity|now right].
    - (* gone *)
      exists full, tl. eapply (inv_end _ _ _ _ (Job id i sent (p :: todo)) NoEndpoint ser q I); unfold live; proj; auto;
        try discriminate.
      + destruct (i_tail _ _ _ I); proj.
        * constructor.
        * injection H0 as <- <- <- <- <-.
          assert (J : In (Job id i sent (p :: todo)) (live (Sender ser (Job id i sent (p :: todo) :: q) w false tr))).
          { unfold live. proj. rewrite in_app_iff. cbn [In]. auto. }
          destruct (i_jobs _ _ _ I _ J) as [C P]. cbn [j_id j_item j_sent j_todo] in *. proj.
          eapply tail_cut; proj; [ | apply in_or_app; left; eassumption | | | | ]; eauto.
        * eapply tail_cut; proj; [ | apply in_or_app; left; eassumption | | | | ]; eauto.
      + exact (i_fresh _ _ _ I).
      + intros j q' -> x X. eapply (i_rest _ _ _ I); proj; [reflexivity|now right].
    - (* cancelled while serializing *)
      assert (F : j_sent j = []).
      { apply (i_fresh _ _ _ I). proj. rewrite in_app_iff. cbn [In]. auto. }
      exists full, tl. eapply (inv_end _ _ _ _ j (Cancelled 0) ser1 (ser2 ++ q) I); unfold live; proj; auto;
        try discriminate.
      + now rewrite <- app_assoc.
      + now rewrite <- app_assoc.
      + rewrite F. auto.
      + eapply tail_trace; [exact (i_tail _ _ _ I)|reflexivity|auto|].
        intros. proj. apply in_or_app. auto.
      + exact (i_idle _ _ _ I).
      + exact (i_head _ _ _ I).
      + intros x X. apply (i_fresh _ _ _ I). proj. rewrite in_app_iff in *. cbn [In]. tauto.
      + exact (i_rest _ _ _ I).
    - (* cancelled in the lock *)
      assert (J : In j (live (Sender ser (q1 ++ j :: q2) w up tr))).
      { unfold live. proj. rewrite !in_app_iff. cbn [In]. auto. }
      destruct (i_jobs _ _ _ I _ J) as [C P]. proj.
      assert (Cut : j_sent j = [] \/ j_todo j = []).
      { destruct (j_sent j) as [|a l] eqn:Es; auto. destruct (j_todo j) as [|b l'] eqn:Et; auto.
        exfalso. apply NI. exists (j_id j), (j_item j), (length (a :: l)), ((a :: l) ++ b :: l').
        rewrite !in_app_iff. cbn [In]. split; auto. split; auto. split; auto.
        rewrite app_length. cbn [length]. lia. }
      exists full, tl. eapply (inv_end _ _ _ _ j (Cancelled (length (j_sent j))) (ser ++ q1) q2 I); unfold live; proj; auto;
        try discriminate.
      + now rewrite <- app_assoc.
      + now rewrite <- app_assoc.
      + destruct (i_tail _ _ _ I); proj.
        * constructor.
        * destruct q1 as [|j1 q1]; cbn [app] in H0; injection H0 as -> <-.
          -- cbn [j_sent j_todo] in Cut. destruct Cut; contradiction.
          -- eapply tail_head; proj; [reflexivity| |]; assumption.
        * eapply tail_cut; proj; [ | apply in_or_app; left; eassumption | | | | ]; eauto.
      + intros -> E. destruct q1; [|discriminate]. cbn [app] in *. destruct j as [jid ji js jt].
        destruct (i_head _ _ _ I eq_refl jid ji js jt _ eq_refl) as [[_ X]|[[_ X]|[X [Y _]]]]; auto.
        cbn [j_sent j_todo] in Cut. destruct Cut; contradiction.
      + intros -> id' i' sent' todo' q' E. destruct q1 as [|j1 q1]; cbn [app] in *.
        * subst q2. left.
          split; [change (j_sent (Job id' i' sent' todo') = []); eapply (i_rest _ _ _ I); proj; [reflexivity|now left]|].
          destruct j as [jid ji js jt].
          destruct (i_head _ _ _ I eq_refl jid ji js jt _ eq_refl) as [[_ X]|[[_ X]|[X [Y _]]]]; auto.
          cbn [j_sent j_todo] in Cut. destruct Cut; contradiction.
        * injection E as -> <-. eapply (i_head _ _ _ I eq_refl). reflexivity.
      + exact (i_fresh _ _ _ I).
      + intros j0 q' E x X. destruct q1 as [|j1 q1]; cbn [app] in *.
        * eapply (i_rest _ _ _ I); proj; [reflexivity|]. rewrite E. now right.
        * injection E as <- <-. eapply (i_rest _ _ _ I); proj; [reflexivity|].
          rewrite in_app_iff in *. cbn [In]. tauto.
    - (* close *)
      exists full, tl. constructor; proj; try (exact (i_wire _ _ _ I) || exact (i_nodup _ _ _ I) ||
        exact (i_called _ _ _ I) || exact (i_returned _ _ _ I) || exact (i_sent _ _ _ I) ||
        exact (i_end _ _ _ I) || exact (i_order _ _ _ I) || exact (i_once _ _ _ I) || exact (i_jobs _ _ _ I) ||
        exact (i_fresh _ _ _ I) || exact (i_rest _ _ _ I) || exact (i_live _ _ _ I) || exact (i_open _ _ _ I) ||
        exact (i_full_job _ _ _ I)); try discriminate.
      eapply tail_trace; [exact (i_tail _ _ _ I)|reflexivity|auto|auto].
  Qed.

  Lemma trace_grows : forall s s', sstep s s' -> exists e, s_trace s' = s_trace s ++ e.
  Proof.
    intros s s' St. destruct St; proj; try (eexists; reflexivity); exists []; now rewrite app_nil_r.
  Qed.

  Lemma inv_sends : forall s, sends s -> ~ interrupted (s_trace s) -> exists full tl, Inv s full tl.
  Proof.
    induction 1 as [|s s' R IH St]; intros NI.
    - exists [], []. apply inv_start.
    - destruct (trace_grows _ _ St) as [e E].
      destruct IH as (full & tl & I).
      + rewrite E in NI. now apply not_interrupted_snoc in NI.
      + eapply inv_step; eauto.
  Qed.

  (** *** Reading early *)

  Lemma take_length : forall n w p r, take n w = Got p r -> length w = S (length r).
  Proof. intros n [|x w] p r; simpl; [discriminate|]. destruct (length x =? n); [|discriminate]. congruence. Qed.
  Lemma take_buffers_length : forall cs ns w bs r, take_buffers cs ns w = Got bs r -> length r <= length w.
  Proof.
    induction cs as [|c cs IH]; intros [|n ns] w bs r; cbn [take_buffers]; try (intros E; injection E as _ <-; lia).
    destruct (n =? 0).
    - destruct (take_buffers cs ns w) eqn:E; try discriminate. intros X. injection X as _ <-. eauto.
    - destruct (take n w) as [p w1| |] eqn:T; try discriminate.
      destruct (take_buffers cs ns w1) eqn:E; try discriminate. intros X. injection X as _ <-.
      apply take_length in T. apply IH in E. lia.
  Qed.
  Lemma take_payload_length : forall ns w ps r, take_payload ns w = Got ps r -> length r <= length w.
  Proof.
    induction ns as [|n ns IH]; intros w ps r; cbn [take_payload]; [intros E; injection E as _ <-; lia|].
    destruct (take n w) as [p w1| |] eqn:T; try discriminate.
    destruct (take_payload ns w1) eqn:E; try discriminate. intros X. injection X as _ <-.
    apply take_length in T. apply IH in E. lia.
  Qed.
  Lemma read_one_length : forall w r w', read_one w = Got r w' -> length w' < length w.
  Proof.
    intros w r w'. unfold UcxModel.read_one, UcxModel.recv_message.
    destruct (take 11 w) as [info w1| |] eqn:T; try discriminate.
    destruct (get_header_length info) as [len|]; try discriminate.
    destruct (take (N.to_nat len) w1) as [h w2| |] eqn:T2; try discriminate.
    destruct (unpickle h) as [[[cs ns] hd]|]; try discriminate.
    destruct (take_buffers cs ns w2) as [bs w3| |] eqn:T3; try discriminate.
    apply take_length in T. apply take_length in T2. apply take_buffers_length in T3.
    cbn [m_head]. destruct (copy_content hd) as [uids|].
    - destruct (lookup_all registry uids) as [sizes|].
      + destruct (take_payload sizes w3) as [ps w4| |] eqn:T4; try discriminate.
        apply take_payload_length in T4. intros E. injection E as _ <-. lia.
      + intros E. injection E as _ <-. lia.
    - intros E. injection E as _ <-. lia.
  Qed.

  Lemma read_loop_more : forall fuel fuel' w x rs st, length w < fuel -> length (w ++ x) < fuel' ->
    read_loop fuel w = (rs, st) ->
    exists rs' st', read_loop fuel' (w ++ x) = (rs ++ rs', st') /\
      (st = Broken -> rs' = [] /\ st' = Broken).
  Proof.
    induction fuel as [|fuel IH]; intros fuel' w x rs st L L' E; [lia|].
    destruct fuel' as [|fuel']; [lia|].
    destruct w as [|p w].
    - cbn [UcxModel.read_loop] in E. injection E as <- <-. cbn [app].
      destruct (read_loop (S fuel') x) as [rs' st']. exists rs', st'. split; [reflexivity|discriminate].
    - cbn [UcxModel.read_loop] in E. pose proof (read_one_more (p :: w) x) as M.
      destruct (read_one (p :: w)) as [r w'| |] eqn:R.
      + pose proof (read_one_length _ _ _ R) as LR.
        destruct (read_loop fuel w') as [rs1 st1] eqn:E1. injection E as <- <-.
        destruct (IH fuel' w' x rs1 st1) as (rs' & st' & E' & B); auto.
        * lia.
        * rewrite app_length in L' |- *. lia.
        * exists rs', st'. split; [|exact B]. cbn [UcxModel.read_loop].
          change ((p :: w) ++ x) with (p :: w ++ x) in *. rewrite M, E'. reflexivity.
      + injection E as <- <-. destruct (read_loop (S fuel') ((p :: w) ++ x)) as [rs' st'].
        exists rs', st'. split; [reflexivity|discriminate].
      + injection E as <- <-. exists [], Broken. split; auto. cbn [UcxModel.read_loop].
        change ((p :: w) ++ x) with (p :: w ++ x) in *. now rewrite M.
  Qed.

  Lemma read_all_more : forall w x rs st, read_all w = (rs, st) ->
    exists rs' st', read_all (w ++ x) = (rs ++ rs', st') /\ (st = Broken -> rs' = [] /\ st' = Broken).
  Proof. intros w x rs st E. eapply read_loop_more; eauto. Qed.

  (** *** Empty buffers *)

  Lemma take_buffers_empty : forall bs k rest,
    0 < k \/ (exists b, In b bs /\ b_data b = []) ->
    let w := repeat [] k ++ map b_data bs ++ rest in
    match take_buffers (map b_cuda bs) (map (fun b => length (b_data b)) bs) w with
    | Got _ r => exists r', r = [] :: r'
    | Wait => False
    | Mismatch => True
    end.
  Proof.
    induction bs as [|[c d] bs IH]; intros k rest D; cbn [map take_buffers app b_cuda b_data].
    - destruct D as [D|(b & [] & _)]. destruct k; [lia|]. cbn [repeat app]. eauto.
    - destruct (length d =? 0) eqn:Z.
      + apply Nat.eqb_eq in Z. assert (d = []) as -> by (destruct d; [reflexivity|discriminate]).
        specialize (IH (S k) rest (or_introl (Nat.lt_0_succ k))). cbv zeta in IH.
        match goal with |- context [take_buffers _ _ ?X] =>
          match type of IH with context [take_buffers _ _ ?Y] => replace X with Y end end.
        * destruct (take_buffers _ _ _); auto.
        * clear. induction k as [|k IHk]; [reflexivity|]. cbn [repeat app] in *. now rewrite IHk.
      + destruct k as [|k].
        * cbn [repeat app]. rewrite take_ok.
          specialize (IH 0 rest). cbn [repeat app] in IH.
          assert (D' : 0 < 0 \/ (exists b, In b bs /\ b_data b = [])).
          { right. destruct D as [D|(b & [<-|B] & E)]; [lia| |now exists b].
            cbn [b_data] in E. subst d. discriminate. }
          specialize (IH D'). cbv zeta in IH. destruct (take_buffers _ _ _); auto.
        * cbn [repeat app take length]. rewrite Nat.eqb_sym in Z. now rewrite Z.
  Qed.

  Lemma empty_breaks : forall m ps rest, message_packets m = Some ps ->
    copy_content (m_head m) = None ->
    (exists b, In b (m_bufs m) /\ b_data b = []) ->
    exists rs, read_all (ps ++ rest) = (rs, Broken) /\ length rs <= 1.
  Proof.
    intros m ps rest E NC D.
    assert (R : match read_one (ps ++ rest) with
                | Got _ r => exists r', r = [] :: r' | Wait => False | Mismatch => True end).
    { unfold UcxModel.message_packets in E. set (header := pickle _) in E.
      destruct (pack 8 (N.of_nat (length header))) as [len|] eqn:P8; [|discriminate].
      destruct (pack 2 compress) as [cmp|] eqn:P2; [|discriminate].
      injection E as <-. unfold UcxModel.read_one, UcxModel.recv_message. cbn [app].
      assert (L : length (version :: len ++ cmp) = 11).
      { cbn [length]. rewrite app_length, (pack_length _ _ _ P8), (pack_length _ _ _ P2). reflexivity. }
      rewrite <- L, take_ok. cbn [get_header_length]. rewrite N.eqb_refl.
      assert (F : firstn 8 (len ++ cmp) = len).
      { rewrite <- (pack_length _ _ _ P8) at 1. rewrite firstn_app, Nat.sub_diag. simpl.
        now rewrite app_nil_r, firstn_all. }
      rewrite F, (pack_value _ _ _ P8), Nat2N.id, take_ok.
      unfold header. rewrite codec.
      pose proof (take_buffers_empty (m_bufs m) 0 rest (or_intror D)) as T. cbn [repeat app] in T.
      destruct (take_buffers _ _ _); auto. cbn [m_head]. now rewrite NC. }
    unfold UcxModel.read_all.
    assert (Lp : 2 <= length ps) by (apply (packets_two (Plain m)); exact E).
    destruct (ps ++ rest) as [|p w] eqn:W.
    - apply app_eq_nil in W. destruct W as [-> _]. cbn [length] in Lp. lia.
    - cbn [UcxModel.read_loop length].
      destruct (read_one (p :: w)) as [r w'| |] eqn:RO; [|contradiction|].
      + destruct R as [r' ->]. exists [r]. cbn [UcxModel.read_loop length].
        unfold UcxModel.read_one, UcxModel.recv_message. cbn [take length Nat.eqb]. auto.
      + exists []. cbn [length]. auto.
  Qed.

  (** *** Copies to unknown buffers *)

  Lemma read_one_unknown : forall m mp uids w, message_packets m = Some mp -> nonempty m ->
    copy_content (m_head m) = Some uids -> (exists u, In u uids /\ registry u = None) ->
    read_one (mp ++ w) = Got (Unknown m) w.
  Proof.
    intros m mp uids w E NE C (u & U & R). unfold UcxModel.read_one.
    rewrite (recv_ok_ucx _ _ _ E NE), C.
    assert (L : lookup_all registry uids = None).
    { clear - U R. induction uids as [|x us IH]; [contradiction|]. cbn [lookup_all].
      destruct U as [->|U]; [now rewrite R|]. rewrite (IH U). now destruct (registry x). }
    now rewrite L.
  Qed.
  Lemma read_all_unknown : forall m mp uids w, message_packets m = Some mp -> nonempty m ->
    copy_content (m_head m) = Some uids -> (exists u, In u uids /\ registry u = None) ->
    exists rs st, read_all w = (rs, st) /\ read_all (mp ++ w) = (Unknown m :: rs, st).
  Proof.
    intros m mp uids w E NE C U. 
    assert (Lp : 2 <= length mp) by (apply (packets_two (Plain m)); exact E).
    destruct (read_all w) as [rs st] eqn:A. exists rs, st. split; [reflexivity|].
    unfold UcxModel.read_all. rewrite app_length.
    cbn [UcxModel.read_loop]. rewrite (read_one_unknown _ _ _ w E NE C U).
    destruct (mp ++ w) eqn:W; [apply app_eq_nil in W; destruct W as [-> _]; cbn [length] in Lp; lia|].
    unfold UcxModel.read_all in A.
    destruct (read_loop_more (S (length w)) (length mp + length w) w [] rs st) as (rs' & st' & E' & _); auto.
    { rewrite app_nil_r. lia. }
    rewrite app_nil_r in E'.
    assert (FF : forall f f' w0, length w0 < f -> length w0 < f' -> read_loop f w0 = read_loop f' w0).
    { clear. induction f as [|f IH]; intros [|f'] w0 L L'; try lia. cbn [UcxModel.read_loop].
      destruct w0 as [|p w0]; auto. destruct (read_one (p :: w0)) as [r w'| |] eqn:R; auto.
      apply read_one_length in R. rewrite (IH f' w') by lia. reflexivity. }
    rewrite (FF (length mp + length w) (S (length w)) w) by lia. now rewrite A.
  Qed.

  (** *** Progress *)
  Inductive steps : sender H -> sender H -> Prop :=
  | steps_refl : forall s, steps s s
  | steps_one : forall s s' s'', sstep s s' -> steps s' s'' -> steps s s''.
  Lemma steps_trans : forall a b c, steps a b -> steps b c -> steps a c.
  Proof. induction 1; intros; auto. econstructor; eauto. Qed.

  Lemma queue_drains : forall n q ser w tr,
    list_sum (map (fun j => S (length (j_todo j))) q) <= n ->
    exists w' tr', steps (Sender ser q w true tr) (Sender ser [] w' true (tr ++ tr')) /\
      (forall j, In j q -> In (Returned (j_id j) Sent) tr').
  Proof.
    induction n as [|n IH]; intros q ser w tr L.
    - destruct q as [|j q]; [|simpl in L; lia]. exists w, []. rewrite app_nil_r.
      split; [constructor|intros j []].
    - destruct q as [|[id i sent todo] q].
      { exists w, []. rewrite app_nil_r. split; [constructor|intros j []]. }
      destruct todo as [|p todo].
      + destruct (IH q ser w (tr ++ [Returned id Sent])) as (w' & tr' & S & A).
        { simpl in L. lia. }
        exists w', (Returned id Sent :: tr'). rewrite <- app_assoc in S. cbn [app] in S. split.
        * econstructor; [apply st_done|exact S].
        * intros j [<-|J]; cbn [In j_id]; auto.
      + destruct (IH (Job id i (sent ++ [p]) todo :: q) ser (w ++ [p]) tr) as (w' & tr' & S & A).
        { simpl in L |- *. lia. }
        exists w', tr'. split.
        * econstructor; [apply st_packet|exact S].
        * intros j [<-|J]; [|apply A; now right].
          change (In (Returned (j_id (Job id i (sent ++ [p]) todo)) Sent) tr'). apply A. now left.
  Qed.

  Lemma ser_locks : forall ser q w tr, steps (Sender ser q w true tr) (Sender [] (q ++ ser) w true tr).
  Proof.
    induction ser as [|j ser IH]; intros q w tr.
    - rewrite app_nil_r. constructor.
    - econstructor; [apply (st_lock _ _ _ [] j ser)|]. cbn [app].
      specialize (IH (q ++ [j]) w tr). now rewrite <- app_assoc in IH.
  Qed.

  Lemma all_return : forall s, s_up s = true ->
    exists s', steps s s' /\ live s' = [] /\ s_up s' = true /\
      (forall e, In e (s_trace s) -> In e (s_trace s')) /\
      (forall j, In j (live s) -> In (Returned (j_id j) Sent) (s_trace s')).
  Proof.
    intros [ser q w up tr] U. cbn [s_up] in U. subst up.
    destruct (queue_drains (list_sum (map (fun j => S (length (j_todo j))) (q ++ ser))) (q ++ ser) [] w tr)
      as (w' & tr' & S & A); [lia|].
    exists (Sender [] [] w' true (tr ++ tr')). split; [|split; [|split; [|split]]]; auto.
    - eapply steps_trans; [apply ser_locks|exact S].
    - intros e E. proj. apply in_or_app. auto.
    - intros j J. unfold live in J. proj. apply in_or_app. right. apply A.
      rewrite in_app_iff in *. tauto.
  Qed.
End Proofs.
