(** * C63: a UCX channel delivers what is sent, once and in order

    Reading guide.  [sends pickle compress s]: [s] is a state of the sending
    side after any interleaving of calls of [send] / [send_buffers], of their
    serialization, of packets, errors, cancellations and closes.
    [s_trace s] is what the callers saw, [s_wire s] every packet handed to the
    endpoint.  [read_all ... w = (rs, st)]: the reader at the other end, given
    the packets [w], has handled the messages [rs] and is now between two
    messages ([Idle]), inside one ([Midway]) or has aborted the channel
    ([Broken]).  [pickle]/[unpickle] stand for cloudpickle. *)
From Coq Require Import List NArith Arith Bool Lia.
From Verif Require Import Base FramingModel FramingProofs UcxModel UcxProofs.
Import ListNotations.

(** ** Specification *)

(** What the receiver should see of an item. *)
Definition as_received {H} (i : item H) : received H :=
  match i with Plain m => Delivered m | CopyTo m payload => Copied m payload end.

(** No buffer of the message is empty; a message announces raw buffers exactly
    when raw buffers follow it, and these fit the registered buffers it names. *)
Definition well_formed {H} (registry : nat -> option nat) (copy_content : H -> option (list nat))
    (i : item H) : Prop :=
  match i with
  | Plain m => (forall b, In b (m_bufs m) -> b_data b <> []) /\ copy_content (m_head m) = None
  | CopyTo m payload => (forall b, In b (m_bufs m) -> b_data b <> []) /\
      exists uids, copy_content (m_head m) = Some uids /\
        map registry uids = map (fun p => Some (length p)) payload
  end.

(** Call [a] returned before call [b] was made. *)
Definition returned_before_call {H} (tr : list (event H)) (a b : nat) : Prop :=
  exists t1 t2, tr = t1 ++ t2 /\ (exists o, In (Returned a o) t1) /\ (exists i, In (Called b i) t2).

(** [a] stands before [b] in the list. *)
Definition precedes (l : list nat) (a b : nat) : Prop :=
  exists l1 l2, l = l1 ++ l2 /\ In a l1 /\ In b l2.

(** A call was cancelled when some, but not all of its packets were out. *)
Definition cut_short {H} pickle compress (tr : list (event H)) : Prop :=
  exists id i k ps, In (Called id i) tr /\ In (Returned id (Cancelled k)) tr /\
    packets pickle compress i = Some ps /\ 0 < k < length ps.

Definition codec_ok {H} (pickle : wire_header H -> bytes) (unpickle : bytes -> option (wire_header H)) : Prop :=
  forall h, unpickle (pickle h) = Some h.

(** ** What holds *)

(** Missing for the full claim: empty buffers, calls cancelled halfway, copies
    to unknown or other-sized buffers (see the refutations). *)
Theorem C63_delivery_partial :
  forall H (pickle : wire_header H -> bytes) unpickle compress registry copy_content,
  codec_ok pickle unpickle ->
  forall s, sends pickle compress s ->
  (forall id i, In (Called id i) (s_trace s) -> well_formed registry copy_content i) ->
  ~ cut_short pickle compress (s_trace s) ->
  exists (order : list (nat * item H)) st,
    (* the reader handles exactly these calls, in this order, and never aborts *)
    read_all unpickle registry copy_content (s_wire s)
      = (map (fun x => as_received (snd x)) order, st) /\ st <> Broken /\
    (s_up s = true -> s_queue s = [] -> st = Idle) /\
    (* every one is a call, at most once *)
    NoDup (map fst order) /\
    (forall id i, In (id, i) order -> In (Called id i) (s_trace s)) /\
    (* every successful call is among them; a call that failed for want of an
       endpoint or was cancelled before its first packet is not *)
    (forall id, In (Returned id Sent) (s_trace s) -> In id (map fst order)) /\
    (forall id, In (Returned id NoEndpoint) (s_trace s) \/ In (Returned id (Cancelled 0)) (s_trace s) ->
       ~ In id (map fst order)) /\
    (* in the order in which they were made *)
    (forall a b, In a (map fst order) -> In b (map fst order) ->
       returned_before_call (s_trace s) a b -> precedes (map fst order) a b).
Proof.
  intros H pickle unpickle compress registry copy_content C s R W NC.
  destruct (inv_sends H pickle compress registry s R NC) as (full & tl & I).
  assert (Rd : forall i, In i (map snd full) -> readable H registry copy_content i).
  { intros i X. apply in_map_iff in X. destruct X as ([id i'] & <- & X).
    apply (i_called _ _ _ _ _ _ I) in X. apply (W _ _ X). }
  assert (M : map (arrives H) (map snd full) = map (fun x => as_received (snd x)) full)
    by apply map_map.
  assert (X : exists st, read_all unpickle registry copy_content (s_wire s)
      = (map (fun x => as_received (snd x)) full, st) /\ st <> Broken /\
    (s_up s = true -> s_queue s = [] -> st = Idle)).
  { destruct (i_wire _ _ _ _ _ _ I) as (w & L & ->). rewrite <- M.
    destruct (i_tail _ _ _ _ _ _ I) as [|id i sent todo q Q N1 N2|id i ps a b U Ca P E N1 N2].
    - exists Idle. rewrite app_nil_r. rewrite (read_all_laid H pickle unpickle compress registry copy_content C _ _ L Rd).
      split; [reflexivity|]. split; [discriminate|auto].
    - exists Midway.
      assert (J : In (Job id i sent todo) (live H s)) by (unfold live; rewrite Q, in_app_iff; cbn [In]; auto).
      destruct (i_jobs _ _ _ _ _ _ I _ J) as [Ca P]. cbn [j_id j_item j_sent j_todo] in Ca, P.
      rewrite (read_all_laid_part H pickle unpickle compress registry copy_content C _ _ i _ sent todo L Rd P
                 (W _ _ Ca) eq_refl N1 N2).
      split; [reflexivity|]. split; [discriminate|]. intros _ E. rewrite E in Q. discriminate.
    - exists Midway.
      rewrite (read_all_laid_part H pickle unpickle compress registry copy_content C _ _ i _ a b L Rd P
                 (W _ _ Ca) E N1 N2).
      split; [reflexivity|]. split; [discriminate|]. rewrite U. discriminate. }
  destruct X as (st & X1 & X2 & X3). exists full, st.
  split; [exact X1|]. split; [exact X2|]. split; [exact X3|].
  split; [exact (i_nodup _ _ _ _ _ _ I)|]. split; [exact (i_called _ _ _ _ _ _ I)|].
  split; [exact (i_sent _ _ _ _ _ _ I)|]. split; [|exact (i_order _ _ _ _ _ _ I)].
  intros id D F. apply in_map_iff in F. destruct F as ([id' i] & E & F). cbn [fst] in E. subst id'.
  destruct D as [D|D]; apply (i_end _ _ _ _ _ _ I id i _ F) in D;
    destruct D as [D|[D|(ps & P & D)]]; try discriminate.
  injection D as D. apply packets_two in P. lia.
Qed.

(** The packets of whole well-formed items are read as these items, whatever
    follows them: a later accident does not change what came before. *)
Theorem C63_whole_messages_first :
  forall H (pickle : wire_header H -> bytes) unpickle compress registry copy_content,
  codec_ok pickle unpickle ->
  forall (items : list (item H)) pss rest,
  Forall2 (fun i ps => packets pickle compress i = Some ps) items pss ->
  (forall i, In i items -> well_formed registry copy_content i) ->
  exists rs st, read_all unpickle registry copy_content (concat pss ++ rest)
    = (map as_received items ++ rs, st).
Proof.
  intros H pickle unpickle compress registry copy_content C items pss rest F W.
  apply (read_all_laid_any H pickle unpickle compress registry copy_content C items (concat pss) rest); auto.
  clear W rest. induction F; cbn [concat]; constructor; auto.
Qed.

(** It makes no difference when the reader reads: what it has handled stays
    handled when more packets arrive, and an aborted channel stays aborted. *)
Theorem C63_reading_early :
  forall H unpickle registry (copy_content : H -> option (list nat)) w more rs st,
  read_all unpickle registry copy_content w = (rs, st) ->
  exists rs' st', read_all unpickle registry copy_content (w ++ more) = (rs ++ rs', st') /\
    (st = Broken -> rs' = [] /\ st' = Broken).
Proof. intros. now apply read_all_more. Qed.

(** A closed channel stays closed, sends nothing, and refuses every further [send]. *)
Theorem C63_closed_refuses : forall H (pickle : wire_header H -> bytes) compress s s',
  sends pickle compress s -> s_up s = false -> sstep pickle compress s s' ->
  s_up s' = false /\ s_wire s' = s_wire s /\
  forall id m, In (Called id (Plain m)) (s_trace s') ->
    In (Called id (Plain m)) (s_trace s) \/ s_trace s' = s_trace s ++ [Called id (Plain m); Returned id ChannelClosed].
Proof.
  intros H pickle compress s s' _ U S.
  destruct S; cbn [s_up s_wire s_trace] in *; subst; try discriminate U; (split; [reflexivity|]); (split; [reflexivity|]); intros id0 m0 I; auto.
  all: try (apply in_app_or in I; destruct I as [I|I]; [auto|]; cbn in I; destruct I as [I|I]; try contradiction; try discriminate I).
  - injection I as -> ->. auto.
  - destruct I as [I|[]]. discriminate I.
  - injection I as -> ->. match goal with D : _ \/ checks_closed _ _ = false |- _ => destruct D as [D|D]; [discriminate D|discriminate D] end.
Qed.
(** While the endpoint is there no call waits forever: every pending call can
    still succeed. *)
Theorem C63_calls_can_finish :
  forall H (pickle : wire_header H -> bytes) compress s, sends pickle compress s -> s_up s = true ->
  exists s', sends pickle compress s' /\ s_serializing s' = [] /\ s_queue s' = [] /\ s_up s' = true /\
    (forall e, In e (s_trace s) -> In e (s_trace s')) /\
    (forall j, In j (s_serializing s ++ s_queue s) -> In (Returned (j_id j) Sent) (s_trace s')).
Proof.
  intros H pickle compress s R U. destruct (all_return H pickle compress s U) as (s' & S & L & U' & T & A).
  exists s'. apply app_eq_nil in L. destruct L as [L1 L2].
  split; [|split; [exact L1|split; [exact L2|split; [exact U'|split; [exact T|exact A]]]]].
  clear - R S. induction S; auto. apply IHS. econstructor; eauto.
Qed.

(** ** What does not hold *)

(** Every message with an empty buffer ([b""], an empty array) breaks the
    channel: the sender sends the empty packet, the receiver does not receive it
    (ucx.py 274-275).  At most that message is delivered, and nothing after it. *)
Theorem C63_empty_buffer_refuted :
  forall H (pickle : wire_header H -> bytes) unpickle compress registry copy_content,
  codec_ok pickle unpickle ->
  forall (m : message H) ps rest, packets pickle compress (Plain m) = Some ps ->
  copy_content (m_head m) = None ->
  (exists b, In b (m_bufs m) /\ b_data b = []) ->
  exists rs, read_all unpickle registry copy_content (ps ++ rest) = (rs, Broken) /\ length rs <= 1.
Proof. intros H pickle unpickle compress registry copy_content C m ps rest. now apply empty_breaks. Qed.

(** A copy that names an unknown buffer is answered, but its raw packets stay
    in the channel and are read as messages: data that happen to look like a
    request are executed as a request. *)
Theorem C63_unknown_buffer_refuted :
  forall H (pickle : wire_header H -> bytes) unpickle compress registry copy_content,
  codec_ok pickle unpickle ->
  forall (m m' : message H) uids payload ps,
  well_formed registry copy_content (Plain m') -> packets pickle compress (Plain m') = Some payload ->
  copy_content (m_head m) = Some uids -> (exists u, In u uids /\ registry u = None) ->
  (forall b, In b (m_bufs m) -> b_data b <> []) ->
  packets pickle compress (CopyTo m payload) = Some ps ->
  read_all unpickle registry copy_content ps = ([Unknown m; Delivered m'], Idle).
Proof.
  intros H pickle unpickle compress registry copy_content C m m' uids payload ps W P' CC U NE P.
  cbn [packets] in P. destruct (message_packets pickle compress m) as [mp|] eqn:M; [|discriminate].
  injection P as <-.
  destruct (read_all_unknown H pickle unpickle compress registry copy_content C m mp uids payload M NE CC U)
    as (rs & st & A & ->).
  assert (L : laid H pickle compress [Plain m'] payload).
  { rewrite <- (app_nil_r payload). constructor; [exact P'|constructor]. }
  rewrite (read_all_laid H pickle unpickle compress registry copy_content C _ _ L) in A.
  - injection A as <- <-. reflexivity.
  - intros i [<-|[]]. exact W.
Qed.

(** ** A concrete codec: headers are lists of numbers; the list that starts
    with 0 announces a copy to the uids that follow. *)
Module Demo.
  Definition pk (w : wire_header (list nat)) : bytes :=
    match w with (cs, ns, h) =>
      N.of_nat (length cs) :: map (fun b : bool => if b then 1%N else 0%N) cs
      ++ N.of_nat (length ns) :: map N.of_nat ns ++ map N.of_nat h
    end.
  Definition upk (b : bytes) : option (wire_header (list nat)) :=
    match b with
    | n :: r =>
        let k := N.to_nat n in
        match skipn k r with
        | l :: r2 => let k2 := N.to_nat l in
            Some (map (fun x => N.eqb x 1%N) (firstn k r), map N.to_nat (firstn k2 r2),
                  map N.to_nat (skipn k2 r2))
        | [] => None
        end
    | [] => None
    end.
  Lemma firstn_exact : forall A (a b : list A), firstn (length a) (a ++ b) = a.
  Proof. intros. now rewrite firstn_app, Nat.sub_diag, firstn_all, app_nil_r. Qed.
  Lemma skipn_exact : forall A (a b : list A), skipn (length a) (a ++ b) = b.
  Proof. intros. now rewrite skipn_app, Nat.sub_diag, skipn_all. Qed.
  Lemma nats : forall l, map N.to_nat (map N.of_nat l) = l.
  Proof. induction l; cbn [map]; auto. now rewrite IHl, Nat2N.id. Qed.
  Lemma codec : codec_ok pk upk.
  Proof.
    intros [[cs ns] h]. unfold pk, upk. rewrite Nat2N.id.
    replace (length cs) with (length (map (fun b : bool => if b then 1%N else 0%N) cs)) by apply map_length.
    cbv zeta. rewrite skipn_exact, firstn_exact, Nat2N.id.
    replace (length ns) with (length (map N.of_nat ns)) by apply map_length.
    rewrite firstn_exact, skipn_exact, !nats, map_map.
    assert (E : map (fun x : bool => N.eqb (if x then 1%N else 0%N) 1%N) cs = cs)
      by (clear; induction cs as [|[] cs IH]; cbn [map]; auto; now rewrite IH).
    now rewrite E.
  Qed.

  Definition copies (h : list nat) : option (list nat) := match h with 0 :: uids => Some uids | _ => None end.
  (** uid 5 is a registered buffer of three bytes *)
  Definition reg (u : nat) : option nat := if u =? 5 then Some 3 else None.

  Definition hello : message (list nat) := Msg [7; 1] [Buf false [65%N; 66%N]; Buf true [67%N]].
  Definition bye : message (list nat) := Msg [7; 2] [].
  Definition copy5 : message (list nat) := Msg [0; 5] [].
  Definition copy6 : message (list nat) := Msg [0; 6] [].
  Definition hollow : message (list nat) := Msg [7; 3] [Buf false []].
  (** a message with one buffer of eleven bytes *)
  Definition eleven : message (list nat) := Msg [7; 4] [Buf false (repeat 9%N 11)].

  Notation run := (sends pk 0%N).
  Lemma run_step : forall s s', run s -> sstep pk 0%N s s' -> run s'.
  Proof. intros. econstructor; eauto. Qed.
  Ltac new_id := let i := fresh in let X := fresh in intros [i X]; cbn [In app] in X; intuition discriminate.
  Ltac call R n i := eapply run_step in R;
    [|apply (st_call _ _ _ _ _ _ _ _ n i); [new_id|first [left; reflexivity|right; reflexivity]|vm_compute; reflexivity]].

  (** Two messages and a copy: two calls overlap, one is cancelled while it
      waits, and the reader gets the rest. *)
  Example a_run : exists s, run s /\
    s_trace s = [Called 0 (Plain hello); Called 1 (CopyTo copy5 [[1%N; 2%N; 3%N]]); Called 2 (Plain bye);
                 Returned 0 Sent; Returned 2 (Cancelled 0); Returned 1 Sent; Called 3 (Plain bye);
                 Returned 3 Sent] /\
    s_queue s = [] /\ s_up s = true /\
    read_all upk reg copies (s_wire s)
      = ([Delivered hello; Copied copy5 [[1%N; 2%N; 3%N]]; Delivered bye], Idle) /\
    (forall id i, In (Called id i) (s_trace s) -> well_formed reg copies i) /\
    ~ cut_short pk 0%N (s_trace s) /\
    returned_before_call (s_trace s) 0 3.
  Proof.
    assert (R := sends_start _ pk 0%N). unfold sender0 in R.
    call R 0 (Plain hello). call R 1 (CopyTo copy5 [[1%N; 2%N; 3%N]]). call R 2 (Plain bye).
    cbn [app] in R.
    eapply run_step in R; [|apply (st_lock _ _ _ [_; _])]. cbn [app] in R.
    eapply run_step in R; [|apply (st_lock _ _ _ [_])]. cbn [app] in R.
    eapply run_step in R; [|apply (st_lock _ _ _ [])]. cbn [app] in R.
    do 4 (eapply run_step in R; [|apply st_packet]; cbn [app] in R).
    eapply run_step in R; [|apply st_done]. cbn [app] in R.
    eapply run_step in R; [|apply (st_cancel _ _ _ _ [_])]. cbn [app j_id j_sent length] in R.
    do 3 (eapply run_step in R; [|apply st_packet]; cbn [app] in R).
    eapply run_step in R; [|apply st_done]. cbn [app] in R.
    call R 3 (Plain bye). cbn [app] in R.
    eapply run_step in R; [|apply (st_lock _ _ _ [])]. cbn [app] in R.
    do 2 (eapply run_step in R; [|apply st_packet]; cbn [app] in R).
    eapply run_step in R; [|apply st_done]. cbn [app] in R.
    eexists. split; [exact R|]. cbn [s_trace s_queue s_up s_wire].
    split; [reflexivity|]. split; [reflexivity|]. split; [reflexivity|].
    split; [vm_compute; reflexivity|]. split; [|split].
    - intros id i X. cbn [In] in X.
      repeat (destruct X as [X|X]; [try discriminate X; injection X as <- <-|]); try contradiction.
      + split; [|reflexivity]. intros b [<-|[<-|[]]]; discriminate.
      + split; [intros b []|]. exists [5]. split; reflexivity.
      + split; [intros b []|reflexivity].
      + split; [intros b []|reflexivity].
    - intros (id & i & k & ps & _ & X & _ & K). cbn [In] in X.
      repeat (destruct X as [X|X]; [try discriminate X; injection X as <- <-; lia|]). contradiction.
    - eexists [_; _; _; _; _; _], [_; _]. split; [reflexivity|].
      split; [exists Sent|exists (Plain bye)]; cbn [In]; auto 10.
  Qed.

  Example whole_messages : exists pss,
    Forall2 (fun i ps => packets pk 0%N i = Some ps) [Plain hello; CopyTo copy5 [[1%N; 2%N; 3%N]]] pss /\
    length (concat pss) = 7.
  Proof. eexists. split; [repeat (constructor; [vm_compute; reflexivity|]); constructor|reflexivity]. Qed.

  Example empty_buffer : exists ps, packets pk 0%N (Plain hollow) = Some ps /\
    read_all upk reg copies ps = ([Delivered hollow], Broken).
  Proof. eexists. split; [vm_compute; reflexivity|vm_compute; reflexivity]. Qed.

  Example raw_data_as_request : exists payload ps,
    packets pk 0%N (Plain bye) = Some payload /\
    packets pk 0%N (CopyTo copy6 payload) = Some ps /\
    read_all upk reg copies ps = ([Unknown copy6; Delivered bye], Idle).
  Proof. do 2 eexists. repeat split; vm_compute; reflexivity. Qed.
End Demo.

(** A call cancelled between two packets leaves half a message in the channel;
    the next packets are taken for the rest of it.  Here the receiver handles a
    message that nobody sent. *)
Theorem C63_interrupted_send_refuted :
  exists s, sends Demo.pk 0%N s /\
    (forall id i, In (Called id i) (s_trace s) -> well_formed Demo.reg Demo.copies i) /\
    In (Returned 1 Sent) (s_trace s) /\
    exists m st, read_all Demo.upk Demo.reg Demo.copies (s_wire s) = ([Delivered m], st) /\
      st <> Idle /\
      forall id i, In (Called id i) (s_trace s) -> as_received i <> Delivered m.
Proof.
  assert (R := sends_start _ Demo.pk 0%N). unfold sender0 in R.
  eapply Demo.run_step in R; [|apply (st_call _ _ _ _ _ _ _ _ 0 (Plain Demo.eleven)); [Demo.new_id|auto|vm_compute; reflexivity]].
  cbn [app] in R.
  eapply Demo.run_step in R; [|apply (st_lock _ _ _ [])]. cbn [app] in R.
  do 2 (eapply Demo.run_step in R; [|apply st_packet]; cbn [app] in R).
  eapply Demo.run_step in R; [|apply (st_cancel _ _ _ _ [])]. cbn [app j_id j_sent length] in R.
  eapply Demo.run_step in R; [|apply (st_call _ _ _ _ _ _ _ _ 1 (Plain Demo.bye)); [Demo.new_id|auto|vm_compute; reflexivity]].
  cbn [app] in R.
  eapply Demo.run_step in R; [|apply (st_lock _ _ _ [])]. cbn [app] in R.
  do 2 (eapply Demo.run_step in R; [|apply st_packet]; cbn [app] in R).
  eapply Demo.run_step in R; [|apply st_done]. cbn [app] in R.
  eexists. split; [exact R|]. cbn [s_trace s_wire]. split; [|split].
  - intros id i X. cbn [In] in X.
    repeat (destruct X as [X|X]; [try discriminate X; injection X as <- <-|]); try contradiction.
    + split; [|reflexivity]. intros b [<-|[]]; discriminate.
    + split; [intros b []|reflexivity].
  - cbn [In]. auto 10.
  - do 2 eexists. split; [vm_compute; reflexivity|]. split; [discriminate|].
    intros id i X. cbn [In] in X.
    repeat (destruct X as [X|X]; [try discriminate X; injection X as <- <-; discriminate|]). contradiction.
Qed.

(** A call that found the channel open and waited for its turn ends with
    AttributeError, and not with ChannelClosed, when the channel is closed or
    another call fails meanwhile (ucx.py 314-319 with 341, 350). *)
Theorem C63_closed_error_refuted :
  exists s, sends Demo.pk 0%N s /\ In (Called 1 (Plain Demo.bye)) (s_trace s) /\
    In (Returned 0 ChannelClosed) (s_trace s) /\ In (Returned 1 NoEndpoint) (s_trace s).
Proof.
  assert (R := sends_start _ Demo.pk 0%N). unfold sender0 in R.
  eapply Demo.run_step in R; [|apply (st_call _ _ _ _ _ _ _ _ 0 (Plain Demo.hello)); [Demo.new_id|auto|vm_compute; reflexivity]].
  eapply Demo.run_step in R; [|apply (st_call _ _ _ _ _ _ _ _ 1 (Plain Demo.bye)); [Demo.new_id|auto|vm_compute; reflexivity]].
  cbn [app] in R.
  eapply Demo.run_step in R; [|apply (st_lock _ _ _ [_])]. cbn [app] in R.
  eapply Demo.run_step in R; [|apply (st_lock _ _ _ [])]. cbn [app] in R.
  eapply Demo.run_step in R; [|apply st_packet]. cbn [app] in R.
  eapply Demo.run_step in R; [|apply st_error; auto]. cbn [app] in R.
  eapply Demo.run_step in R; [|apply st_gone]. cbn [app] in R.
  eexists. split; [exact R|]. cbn [s_trace In]. auto 10.
Qed.

Print Assumptions C63_delivery_partial.
Print Assumptions C63_whole_messages_first.
Print Assumptions C63_reading_early.
Print Assumptions C63_calls_can_finish.
Print Assumptions C63_empty_buffer_refuted.
Print Assumptions C63_unknown_buffer_refuted.
Print Assumptions C63_interrupted_send_refuted.
Print Assumptions C63_closed_error_refuted.
Print Assumptions C63_closed_refuses.
