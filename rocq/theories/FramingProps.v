(** C04, C05: the wire format.

    Reading guide.  [stream pickle chunk compress ms = Some s] says: [s] is what
    the sender's transport is given when the messages [ms] are sent in that order
    on one connection.  [Reader \[\] chunks] is a receiver to which these bytes
    arrive in the pieces [chunks] and then the connection ends.  [recv_all n] calls
    [recv] until it raises (at most [n] times) and lists what was delivered and
    the exception.  The only assumption is that unpickling undoes pickling. *)
From Coq Require Import List NArith Arith Bool Lia.
From Verif Require Import Base FramingModel FramingProofs.
Import ListNotations.

(** C04: every sequence of messages, however the bytes are cut into pieces, is
    delivered exactly, and after the last one the receiver sees the end of the
    stream: nothing is left over. *)
Theorem C04_stream_roundtrip :
  forall (H : Type) (pickle : wire_header H -> bytes) (unpickle : bytes -> option (wire_header H))
         (cuda_chunk : nat),
    (forall w, unpickle (pickle w) = Some w) -> 0 < cuda_chunk ->
    forall (compress : N) (ms : list (message H)) (s : bytes) (chunks : list bytes) (extra : nat),
      stream pickle cuda_chunk compress ms = Some s ->
      concat chunks = s ->
      recv_all unpickle cuda_chunk (length ms + S extra) (Reader [] chunks) = (ms, Some EEof).
Proof. intros. eapply roundtrip; eauto. Qed.

(** C04: sending fails only when a length does not fit its field: header of
    2^64 bytes or more, compression code of 2^16 or more. *)
Theorem C04_send_defined :
  forall (H : Type) (pickle : wire_header H -> bytes) (cuda_chunk : nat) (compress : N) (m : message H),
    (exists f, frame pickle cuda_chunk compress m = Some f) <->
    (N.of_nat (length (pickle (map b_cuda (m_bufs m),
        map (fun b => length (b_data b)) (m_bufs m), m_head m))) < 2 ^ 64)%N
    /\ (compress < 2 ^ 16)%N.
Proof.
  intros. unfold frame, pack.
  change (256 ^ N.of_nat 8)%N with (2 ^ 64)%N. change (256 ^ N.of_nat 2)%N with (2 ^ 16)%N.
  destruct (N.ltb_spec (N.of_nat (length (pickle (map b_cuda (m_bufs m),
        map (fun b => length (b_data b)) (m_bufs m), m_head m)))) (2 ^ 64)%N) as [L1|L1];
  destruct (N.ltb_spec compress (2 ^ 16)%N) as [L2|L2]; split; intros HH.
  all: try (split; assumption).
  all: try (destruct HH; lia).
  all: try (destruct HH as [f HH]; discriminate).
  eexists; reflexivity.
Qed.

(** C05: the connection breaks inside the message [m] (only the proper prefix
    [p] of its bytes arrives): the earlier messages are delivered, [recv] then
    raises EOFError and [m] is not delivered. *)
Theorem C05_truncated_stream :
  forall (H : Type) (pickle : wire_header H -> bytes) (unpickle : bytes -> option (wire_header H))
         (cuda_chunk : nat),
    (forall w, unpickle (pickle w) = Some w) -> 0 < cuda_chunk ->
    forall (compress : N) (ms : list (message H)) (m : message H) (s f p q : bytes)
           (chunks : list bytes) (extra : nat),
      stream pickle cuda_chunk compress ms = Some s ->
      frame pickle cuda_chunk compress m = Some f ->
      f = p ++ q -> q <> [] ->
      concat chunks = s ++ p ->
      recv_all unpickle cuda_chunk (length ms + S extra) (Reader [] chunks) = (ms, Some EEof).
Proof. intros. eapply truncated; eauto. Qed.

(** C05: a peer speaking another version is refused at once, whatever follows. *)
Theorem C05_other_version_refused :
  forall (H : Type) (pickle : wire_header H -> bytes) (unpickle : bytes -> option (wire_header H))
         (cuda_chunk : nat),
    (forall w, unpickle (pickle w) = Some w) -> 0 < cuda_chunk ->
    forall (compress : N) (ms : list (message H)) (s : bytes) (v : N) (rest : bytes)
           (chunks : list bytes) (extra : nat),
      stream pickle cuda_chunk compress ms = Some s ->
      v <> 1%N ->
      concat chunks = s ++ v :: rest ->
      recv_all unpickle cuda_chunk (length ms + S extra) (Reader [] chunks) = (ms, Some EEof).
Proof. intros. eapply bad_version; eauto. Qed.

(** C05: on any byte stream whatsoever, a delivered message is made of bytes
    that were there, in this layout, and exactly these are consumed. *)
Theorem C05_delivery_accounts_for_bytes :
  forall (H : Type) (unpickle : bytes -> option (wire_header H)) (cuda_chunk : nat)
         (r r' : reader) (m : message H),
    recv unpickle cuda_chunk r = inl (m, r') ->
    exists len compress header cudas sizes,
      length len = 8 /\ length compress = 2 /\ le_value len = N.of_nat (length header) /\
      unpickle header = Some (cudas, sizes, m_head m) /\
      r_have r ++ concat (r_coming r)
      = (1%N :: len ++ compress) ++ header ++ concat (map b_data (m_bufs m))
        ++ (r_have r' ++ concat (r_coming r')).
Proof. intros. eapply recv_inv; eauto. Qed.

(** Non-vacuity: a concrete codec satisfying the hypothesis (a header type with
    one value; sizes written in unary), two messages with an empty buffer, a GPU
    buffer longer than the chunk, cut into odd pieces. *)
Module Example_framing.
  Definition enc_bool (b : bool) : N := if b then 1%N else 0%N.
  Fixpoint enc (cs : list bool) (ns : list nat) : bytes :=
    match cs, ns with
    | c :: cs', n :: ns' => 2%N :: enc_bool c :: repeat 1%N n ++ 0%N :: enc cs' ns'
    | _, _ => []
    end.
  Definition m1 : message nat := Msg 7 [Buf false [1%N; 2%N; 3%N]; Buf false []].
  Definition m2 : message nat := Msg 9 [Buf true [4%N; 5%N; 6%N; 7%N; 8%N]].
  (* a table codec: enough to run *)
  Definition pk (w : wire_header nat) : bytes :=
    match w with (cs, ns, h) => N.of_nat h :: enc cs ns end.
  Definition upk (b : bytes) : option (wire_header nat) :=
    match b with
    | 7%N :: _ => Some ([false; false], [3; 0], 7)
    | 9%N :: _ => Some ([true], [5], 9)
    | _ => None
    end.
  Fixpoint cut (k : nat) (b : bytes) : list bytes :=
    match b with
    | [] => []
    | x :: b' => match k with 0 => [x] :: cut 2 b' | S k' =>
                   match cut k' b' with c :: cs => (x :: c) :: cs | [] => [[x]] end end
    end.
  Example two_messages :
    match stream pk 2 0 [m1; m2] with
    | Some s => recv_all upk 2 5 (Reader [] (cut 2 s)) = ([m1; m2], Some EEof)
                /\ length s = 49
    | None => False
    end.
  Proof. vm_compute. split; reflexivity. Qed.
  Example cut_inside :
    match stream pk 2 0 [m1; m2] with
    | Some s => recv_all upk 2 5 (Reader [] (cut 2 (firstn 47 s))) = ([m1], Some EEof)
    | None => False
    end.
  Proof. vm_compute. reflexivity. Qed.
  (** A codec for which the hypothesis [unpickle (pickle w) = Some w] holds for
      every header exists: sizes in unary, flags as bytes. *)
  Definition pk1 (w : wire_header unit) : bytes :=
    match w with (cs, ns, _) =>
      repeat 1%N (length cs) ++ 0%N :: map enc_bool cs ++
      concat (map (fun n => repeat 1%N n ++ [0%N]) ns) end.
  Fixpoint unary (b : bytes) : nat * bytes :=
    match b with 1%N :: b' => let (n, r) := unary b' in (S n, r) | _ :: b' => (0, b') | [] => (0, []) end.
  Fixpoint unaries (fuel : nat) (b : bytes) : list nat :=
    match fuel with 0 => [] | S f => match b with [] => [] | _ =>
      let (n, r) := unary b in n :: unaries f r end end.
  Definition upk1 (b : bytes) : option (wire_header unit) :=
    let (k, r) := unary b in
    Some (map (fun x => N.eqb x 1%N) (firstn k r),
          unaries (length (skipn k r)) (skipn k r), tt).
  Lemma unary_repeat : forall n r, unary (repeat 1%N n ++ 0%N :: r) = (n, r).
  Proof. induction n; simpl; intros; auto. now rewrite IHn. Qed.
  Lemma unaries_ok : forall ns fuel, length (concat (map (fun n => repeat 1%N n ++ [0%N]) ns)) <= fuel ->
    unaries fuel (concat (map (fun n => repeat 1%N n ++ [0%N]) ns)) = ns.
  Proof.
    induction ns as [|n ns IH]; intros fuel L.
    - destruct fuel; reflexivity.
    - cbn [map concat] in *. rewrite !app_length in L. rewrite <- app_assoc in *. cbn [app] in *.
      destruct fuel; [simpl in L; lia|]. cbn [unaries].
      rewrite unary_repeat. rewrite IH by (simpl in L; lia).
      destruct n; reflexivity.
  Qed.
  Example codec_exists : forall w, upk1 (pk1 w) = Some w.
  Proof.
    intros [[cs ns] []]. unfold upk1, pk1. rewrite unary_repeat.
    rewrite firstn_app, map_length, Nat.sub_diag. simpl firstn. rewrite app_nil_r.
    rewrite firstn_all2 by (rewrite map_length; lia).
    rewrite skipn_app, map_length, Nat.sub_diag. rewrite skipn_all2 by (rewrite map_length; lia). simpl.
    rewrite unaries_ok by lia. rewrite map_map.
    assert (E : map (fun x => (enc_bool x =? 1)%N) cs = cs).
    { induction cs as [|[] cs IH]; simpl; auto; now rewrite IH. }
    now rewrite E.
  Qed.
End Example_framing.

Print Assumptions C04_stream_roundtrip.
Print Assumptions C05_truncated_stream.
Print Assumptions C05_other_version_refused.
Print Assumptions C05_delivery_accounts_for_bytes.
