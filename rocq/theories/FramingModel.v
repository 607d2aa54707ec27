(** Model of the socket wire format.
    Sources: python/xoscar/serialization/aio.py (AioSerializer 33-70,
    get_header_length 76-88, AioDeserializer 91-141),
    python/xoscar/backends/communication/utils.py (write_buffers 44-66,
    read_buffers 69-97), python/xoscar/backends/communication/socket.py
    (SocketChannel.send 78-96, recv 99-104).

    Bytes are values of [N].  [cloudpickle.dumps/loads] of the header is a pair
    of abstract functions [pickle]/[unpickle]. *)
From Coq Require Import List NArith Arith Bool Lia.
From Verif Require Import Base.
Import ListNotations.

Definition bytes := list N.

(** [struct.pack("<Q", n)] with [k] = 8 and [struct.pack("<H", n)] with [k] = 2
    (aio.py 60, 62): little endian, [k] bytes. *)
Fixpoint le_bytes (k : nat) (n : N) : bytes :=
  match k with
  | 0 => []
  | S k' => (n mod 256)%N :: le_bytes k' (n / 256)%N
  end.

(** [struct.unpack("<Q", b)] (aio.py 85, 87). *)
Fixpoint le_value (b : bytes) : N :=
  match b with
  | [] => 0%N
  | x :: b' => (x + 256 * le_value b')%N
  end.

(** [struct.pack] raises [struct.error] when the value does not fit. *)
Definition pack (k : nat) (n : N) : option bytes :=
  if (n <? 256 ^ N.of_nat k)%N then Some (le_bytes k n) else None.

(** aio.py 28. *)
Definition version : N := 1%N.

(** One buffer of a message and whether it lives in GPU memory
    (aio.py 43-47, [__cuda_array_interface__]). *)
Record buffer := Buf { b_cuda : bool; b_data : bytes }.

(** What can go wrong in [recv]: [EOFError] covers asyncio's
    IncompleteReadError (a subclass of EOFError) and the version check
    (aio.py 79-83); [EBadHeader] is an exception of [cloudpickle.loads]. *)
Inductive rerror := EEof | EBadHeader.

Section Framing.
  (** The serialized object header ([headers\[-1\]] of serialization/core.pyx). *)
  Variable H : Type.
  (** What [cloudpickle] encodes: is_cuda_buffers, buf_sizes, header. *)
  Definition wire_header : Type := (list bool * list nat * H)%type.
  Variable pickle : wire_header -> bytes.
  Variable unpickle : bytes -> option wire_header.
  (** CUDA_CHUNK_SIZE (utils.py 28), 16 MiB in the code. *)
  Variable cuda_chunk : nat.

  Record message := Msg { m_head : H; m_bufs : list buffer }.

  (** utils.py 45-59 [_write_cuda_buffer]: the sequence of [writer.write]
      arguments.  [fuel] bounds the [while] loop; [length data] suffices. *)
  Fixpoint cuda_writes (fuel : nat) (data : bytes) (offset : nat) : list bytes :=
    match fuel with
    | 0 => []
    | S fuel' =>
        let nbytes := length data in
        if offset <? nbytes then
          let size := if offset + cuda_chunk <? nbytes then cuda_chunk else nbytes - offset in
          firstn size (skipn offset data) :: cuda_writes fuel' data (offset + size)
        else []
    end.

  (** utils.py 61-66: one [writer.write] per host buffer, chunks for a GPU buffer. *)
  Definition buffer_writes (b : buffer) : list bytes :=
    if b_cuda b then cuda_writes (length (b_data b)) (b_data b) 0 else [b_data b].

  (** aio.py 38-67 and socket.py 78-86: all the bytes that one [send] hands to
      the transport, in order.  [write_buffers] contains no [await], so the
      writes of one send are contiguous. *)
  Definition frame (compress : N) (m : message) : option bytes :=
    let header := pickle (map b_cuda (m_bufs m),
                          map (fun b => length (b_data b)) (m_bufs m), m_head m) in
    match pack 8 (N.of_nat (length header)), pack 2 compress with
    | Some len, Some cmp =>
        Some ((version :: len ++ cmp) ++ header
              ++ concat (concat (map buffer_writes (m_bufs m))))
    | _, _ => None
    end.

  (** The receiving end: asyncio.StreamReader holds the bytes received so far;
      the rest arrives in arbitrary pieces, then EOF. *)
  Record reader := Reader { r_have : bytes; r_coming : list bytes }.

  (** [StreamReader.readexactly n]: wait until [n] bytes are there, else
      IncompleteReadError. *)
  Fixpoint readexactly_from (n : nat) (have : bytes) (coming : list bytes) : option (bytes * reader) :=
    if n <=? length have
    then Some (firstn n have, Reader (skipn n have) coming)
    else match coming with
         | [] => None
         | c :: coming' => readexactly_from n (have ++ c) coming'
         end.
  Definition readexactly (n : nat) (r : reader) : option (bytes * reader) :=
    readexactly_from n (r_have r) (r_coming r).

  (** aio.py 76-88 [get_header_length]. *)
  Definition get_header_length (hb : bytes) : option N :=
    match hb with
    | v :: rest => if (v =? version)%N then Some (le_value (firstn 8 rest)) else None
    | [] => None
    end.

  (** utils.py 83-93: the chunked read of a GPU buffer. *)
  Fixpoint read_cuda (fuel : nat) (buf_size offset : nat) (r : reader) : option (bytes * reader) :=
    match fuel with
    | 0 => Some ([], r)
    | S fuel' =>
        if offset <? buf_size then
          let size := if offset + cuda_chunk <? buf_size then cuda_chunk else buf_size - offset in
          match readexactly size r with
          | None => None
          | Some (content, r1) =>
              match read_cuda fuel' buf_size (offset + size) r1 with
              | None => None
              | Some (more, r2) => Some (content ++ more, r2)
              end
          end
        else Some ([], r)
    end.

  (** utils.py 69-97 [read_buffers]; [zip] stops at the shorter list. *)
  Fixpoint read_buffers (cudas : list bool) (sizes : list nat) (r : reader)
    : option (list buffer * reader) :=
    match cudas, sizes with
    | c :: cudas', n :: sizes' =>
        match (if c then read_cuda n n 0 r else readexactly n r) with
        | None => None
        | Some (data, r1) =>
            match read_buffers cudas' sizes' r1 with
            | None => None
            | Some (bs, r2) => Some (Buf c data :: bs, r2)
            end
        end
    | _, _ => Some ([], r)
    end.

  (** socket.py 99-104 with aio.py 105-113, 140-141: read the 11 fixed bytes,
      the header, then the buffers.  ([N.to_nat] of the header length: a length
      the stream cannot satisfy fails in [readexactly] as in the code.) *)
  Definition recv (r : reader) : (message * reader) + rerror :=
    match readexactly 11 r with
    | None => inr EEof
    | Some (hb, r1) =>
        match get_header_length hb with
        | None => inr EEof
        | Some len =>
            match readexactly (N.to_nat len) r1 with
            | None => inr EEof
            | Some (h, r2) =>
                match unpickle h with
                | None => inr EBadHeader
                | Some (cudas, sizes, hd) =>
                    match read_buffers cudas sizes r2 with
                    | None => inr EEof
                    | Some (bs, r3) => inl (Msg hd bs, r3)
                    end
                end
            end
        end
    end.

  (** The loop of a channel handler (pool.py 452-466 / core.py 97-139): receive
      until [recv] raises.  [fuel] bounds the number of receives. *)
  Fixpoint recv_all (fuel : nat) (r : reader) : list message * option rerror :=
    match fuel with
    | 0 => ([], None)
    | S fuel' =>
        match recv r with
        | inr e => ([], Some e)
        | inl (m, r') => let (ms, e) := recv_all fuel' r' in (m :: ms, e)
        end
    end.

  (** The bytes of a sequence of sends on one connection: since each [send]
      writes its frame without suspension, concurrent senders interleave only at
      frame boundaries (socket.py 86). *)
  Fixpoint stream (compress : N) (ms : list message) : option bytes :=
    match ms with
    | [] => Some []
    | m :: ms' =>
        match frame compress m, stream compress ms' with
        | Some f, Some s => Some (f ++ s)
        | _, _ => None
        end
    end.
End Framing.

Arguments Msg {H} _ _.
Arguments m_head {H} _.
Arguments m_bufs {H} _.
Arguments frame {H} pickle cuda_chunk compress m.
Arguments recv {H} unpickle cuda_chunk r.
Arguments recv_all {H} unpickle cuda_chunk fuel r.
Arguments stream {H} pickle cuda_chunk compress ms.
