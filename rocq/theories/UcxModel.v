(** Model of a UCX channel: packets, the sending side and the receiving side.
    Sources: python/xoscar/backends/communication/ucx.py (UCXChannel 193-361,
    UCXClient.send_buffers 537-538), python/xoscar/serialization/aio.py
    (AioSerializer 33-70, get_header_length 76-88),
    python/xoscar/backends/context.py (copy_to_buffers 353-367, the UCX branch),
    python/xoscar/backends/pool.py (_handle_ucx_meta_message 542-571,
    on_new_channel 573-598).

    UCX is message oriented: one [endpoint.send(buf)] is one packet, and one
    [endpoint.recv(buf)] takes the oldest packet of the connection.  ucx-py
    completes a receive only when the packet has exactly the size of the buffer;
    it raises UCXMsgTruncated when the sizes differ.  These two facts about
    ucx-py are assumed.  GPU buffers are bytes like host buffers (the stream
    synchronisation of lines 303-305 is not modelled). *)
From Coq Require Import List NArith Arith Bool Lia.
From Verif Require Import Base FramingModel.
Import ListNotations.

Definition packet := bytes.

(** How a [send] / [send_buffers] ends.  [Cancelled k]: cancelled after [k]
    packets were handed to the endpoint.  [NoEndpoint]: AttributeError, since
    [self.ucp_endpoint] is None (314, 316). *)
Inductive outcome := Sent | Cancelled (k : nat) | ChannelClosed | NoEndpoint.

(** What a sequence of receives ends with: nothing more has arrived ([Idle]
    between two messages, [Midway] inside one), or the channel was aborted. *)
Inductive status := Idle | Midway | Broken.

Section Ucx.
  Variable H : Type.
  Variable pickle : wire_header H -> bytes.
  Variable unpickle : bytes -> option (wire_header H).
  Variable compress : N.
  (** The receiving process: the size of the registered buffer of each uid
      (api.py buffer_ref, core.pyx BufferRef.get_buffer). *)
  Variable registry : nat -> option nat.
  (** Whether a message is a [switch_to_copy_to] control message, and the uids
      in its content (pool.py 545-550, 561-564). *)
  Variable copy_content : H -> option (list nat).

  (** What one caller hands to the channel: a message ([send], 251-256), or raw
      buffers announced by a message ([send_buffers] with [meta], 296-319). *)
  Inductive item := Plain (m : message H) | CopyTo (m : message H) (payload : list bytes).

  (** aio.py 38-67: the packets of a message: 11 fixed bytes, the header, the
      buffers.  [None]: struct.error. *)
  Definition message_packets (m : message H) : option (list packet) :=
    let header := pickle (map b_cuda (m_bufs m),
                          map (fun b => length (b_data b)) (m_bufs m), m_head m) in
    match pack 8 (N.of_nat (length header)), pack 2 compress with
    | Some len, Some cmp => Some ((version :: len ++ cmp) :: header :: map b_data (m_bufs m))
    | _, _ => None
    end.

  (** 255-256; 307-316: [meta_buffers], then [buffers]. *)
  Definition packets (i : item) : option (list packet) :=
    match i with
    | Plain m => message_packets m
    | CopyTo m payload =>
        match message_packets m with
        | Some ps => Some (ps ++ payload)
        | None => None
        end
    end.

  (** ** The sending side *)

  (** A call that has not returned: its number, its item, the packets already
      handed to the endpoint and those to come. *)
  Record job := Job { j_id : nat; j_item : item; j_sent : list packet; j_todo : list packet }.

  (** What the callers see, in order. *)
  Inductive event := Called (id : nat) (i : item) | Returned (id : nat) (o : outcome).

  (** [s_serializing]: calls in [_serialize] (255, 309).  [s_queue]: calls that
      own ([head]) or wait for [_send_lock] (311), an asyncio.Lock, served in
      order.  [s_wire]: every packet handed to the endpoint so far.
      [s_up]: [ucp_endpoint] is not None. *)
  Record sender := Sender {
    s_serializing : list job;
    s_queue : list job;
    s_wire : list packet;
    s_up : bool;
    s_trace : list event }.

  Definition sender0 : sender := Sender [] [] [] true [].

  Definition called (tr : list event) (id : nat) : Prop := exists i, In (Called id i) tr.

  (** 252: only [send] looks at [closed] ([ucp_endpoint is None], 361). *)
  Definition checks_closed (i : item) : bool := match i with Plain _ => true | CopyTo _ _ => false end.

  Inductive sstep : sender -> sender -> Prop :=
  | st_refused : forall ser q w tr id m,                    (* 252-253 *)
      ~ called tr id ->
      sstep (Sender ser q w false tr)
            (Sender ser q w false (tr ++ [Called id (Plain m); Returned id ChannelClosed]))
  | st_call : forall ser q w up tr id i ps,                 (* 255, 309 *)
      ~ called tr id -> up = true \/ checks_closed i = false -> packets i = Some ps ->
      sstep (Sender ser q w up tr)
            (Sender (Job id i [] ps :: ser) q w up (tr ++ [Called id i]))
  | st_lock : forall ser1 j ser2 q w up tr,                 (* 311: serialised, enters the lock *)
      sstep (Sender (ser1 ++ j :: ser2) q w up tr) (Sender (ser1 ++ ser2) (q ++ [j]) w up tr)
  | st_packet : forall ser id i sent p todo q w tr,         (* 314, 316 *)
      sstep (Sender ser (Job id i sent (p :: todo) :: q) w true tr)
            (Sender ser (Job id i (sent ++ [p]) todo :: q) (w ++ [p]) true tr)
  | st_done : forall ser id i sent q w up tr,
      sstep (Sender ser (Job id i sent [] :: q) w up tr)
            (Sender ser q w up (tr ++ [Returned id Sent]))
  | st_error : forall ser id i sent todo q w up tr,         (* 317-319: UCXError, abort *)
      up = true \/ sent <> [] ->
      sstep (Sender ser (Job id i sent todo :: q) w up tr)
            (Sender ser q w false (tr ++ [Returned id ChannelClosed]))
  | st_gone : forall ser id i sent p todo q w tr,           (* None.send *)
      sstep (Sender ser (Job id i sent (p :: todo) :: q) w false tr)
            (Sender ser q w false (tr ++ [Returned id NoEndpoint]))
  | st_cancel_serializing : forall ser1 j ser2 q w up tr,
      sstep (Sender (ser1 ++ j :: ser2) q w up tr)
            (Sender (ser1 ++ ser2) q w up (tr ++ [Returned (j_id j) (Cancelled 0)]))
  | st_cancel : forall ser q1 j q2 w up tr,                 (* CancelledError is no UCXError *)
      sstep (Sender ser (q1 ++ j :: q2) w up tr)
            (Sender ser (q1 ++ q2) w up (tr ++ [Returned (j_id j) (Cancelled (length (j_sent j)))]))
  | st_close : forall ser q w up tr,                        (* abort 337-341, close 344-350, by anyone *)
      sstep (Sender ser q w up tr) (Sender ser q w false tr).

  Inductive sends : sender -> Prop :=
  | sends_start : sends sender0
  | sends_step : forall s s', sends s -> sstep s s' -> sends s'.

  (** ** The receiving side *)

  (** What the reader of the channel (pool.py 573-592) does with one message:
      dispatch it, or fill registered buffers with the raw packets that follow,
      or answer that a buffer is unknown. *)
  Inductive received := Delivered (m : message H) | Copied (m : message H) (payload : list bytes)
    | Unknown (m : message H).

  Inductive taken (A : Type) := Got (a : A) (rest : list packet) | Wait | Mismatch.
  Arguments Got {A} a rest.
  Arguments Wait {A}.
  Arguments Mismatch {A}.

  (** [await endpoint.recv(buffer)] with a buffer of [n] bytes. *)
  Definition take (n : nat) (w : list packet) : taken packet :=
    match w with
    | [] => Wait
    | p :: w' => if length p =? n then Got p w' else Mismatch
    end.

  (** 272-283: [zip] stops at the shorter list; a buffer of size 0 is not received. *)
  Fixpoint take_buffers (cudas : list bool) (sizes : list nat) (w : list packet)
    : taken (list buffer) :=
    match cudas, sizes with
    | c :: cudas', n :: sizes' =>
        if n =? 0 then
          match take_buffers cudas' sizes' w with
          | Got bs w2 => Got (Buf false [] :: bs) w2
          | Wait => Wait | Mismatch => Mismatch
          end
        else
          match take n w with
          | Got p w1 =>
              match take_buffers cudas' sizes' w1 with
              | Got bs w2 => Got (Buf c p :: bs) w2
              | Wait => Wait | Mismatch => Mismatch
              end
          | Wait => Wait | Mismatch => Mismatch
          end
    | _, _ => Got [] w
    end.

  (** 259-294 [recv].  An exception aborts the channel (284-293). *)
  Definition recv_message (w : list packet) : taken (message H) :=
    match take 11 w with
    | Got info w1 =>
        match get_header_length info with
        | None => Mismatch
        | Some len =>
            match take (N.to_nat len) w1 with
            | Got h w2 =>
                match unpickle h with
                | None => Mismatch
                | Some (cudas, sizes, hd) =>
                    match take_buffers cudas sizes w2 with
                    | Got bs w3 => Got (Msg hd bs) w3
                    | Wait => Wait | Mismatch => Mismatch
                    end
                end
            | Wait => Wait | Mismatch => Mismatch
            end
        end
    | Wait => Wait | Mismatch => Mismatch
    end.

  (** pool.py 561-564: the registered buffers; a KeyError for the first unknown. *)
  Fixpoint lookup_all (uids : list nat) : option (list nat) :=
    match uids with
    | [] => Some []
    | u :: us => match registry u, lookup_all us with
                 | Some n, Some ns => Some (n :: ns)
                 | _, _ => None
                 end
    end.

  (** 321-335 [recv_buffers]: no exception for empty buffers here. *)
  Fixpoint take_payload (sizes : list nat) (w : list packet) : taken (list bytes) :=
    match sizes with
    | [] => Got [] w
    | n :: sizes' =>
        match take n w with
        | Got p w1 =>
            match take_payload sizes' w1 with
            | Got ps w2 => Got (p :: ps) w2
            | Wait => Wait | Mismatch => Mismatch
            end
        | Wait => Wait | Mismatch => Mismatch
        end
    end.

  (** pool.py 577, 587-589 with 542-571: one turn of the reader. *)
  Definition read_one (w : list packet) : taken received :=
    match recv_message w with
    | Got m w1 =>
        match copy_content (m_head m) with
        | None => Got (Delivered m) w1
        | Some uids =>
            match lookup_all uids with
            | None => Got (Unknown m) w1
            | Some sizes =>
                match take_payload sizes w1 with
                | Got payload w2 => Got (Copied m payload) w2
                | Wait => Wait | Mismatch => Mismatch
                end
            end
        end
    | Wait => Wait | Mismatch => Mismatch
    end.

  (** pool.py 575-592: the loop of the reader over the packets that have
      arrived.  Every turn takes a packet, so [length w] turns suffice. *)
  Fixpoint read_loop (fuel : nat) (w : list packet) : list received * status :=
    match fuel with
    | 0 => ([], Midway)
    | S fuel' =>
        match w with
        | [] => ([], Idle)
        | _ => match read_one w with
               | Got r w' => let (rs, st) := read_loop fuel' w' in (r :: rs, st)
               | Wait => ([], Midway)
               | Mismatch => ([], Broken)
               end
        end
    end.
  Definition read_all (w : list packet) : list received * status := read_loop (S (length w)) w.
End Ucx.

Arguments Plain {H} m.
Arguments CopyTo {H} m payload.
Arguments Job {H} _ _ _ _.
Arguments j_id {H} _.
Arguments j_item {H} _.
Arguments j_sent {H} _.
Arguments j_todo {H} _.
Arguments Called {H} id i.
Arguments Returned {H} id o.
Arguments Sender {H} _ _ _ _ _.
Arguments s_serializing {H} _.
Arguments s_queue {H} _.
Arguments s_wire {H} _.
Arguments s_up {H} _.
Arguments s_trace {H} _.
Arguments sender0 {H}.
Arguments called {H} tr id.
Arguments Delivered {H} m.
Arguments Copied {H} m payload.
Arguments Unknown {H} m.
Arguments Got {A} a rest.
Arguments Wait {A}.
Arguments Mismatch {A}.
Arguments message_packets {H} pickle compress m.
Arguments packets {H} pickle compress i.
Arguments sstep {H} pickle compress _ _.
Arguments sends {H} pickle compress _.
Arguments recv_message {H} unpickle w.
Arguments read_one {H} unpickle registry copy_content w.
Arguments read_loop {H} unpickle registry copy_content fuel w.
Arguments read_all {H} unpickle registry copy_content w.
