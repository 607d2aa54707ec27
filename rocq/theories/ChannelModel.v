(** * Sending over a socket channel, from the object to the object

    Source: python/xoscar/backends/communication/socket.py 78-104 ([SocketChannel.send], [recv]),
    serialization/aio.py 38-70, serialization/core.pyx 745-800 ([serialize_with_spawn]), on top of
    SerModel (the serializer) and FramingModel (bytes and frames).

    Tasks of one event loop call [send] on one channel; each awaits its call before it
    makes the next.  The program's objects live in a heap which tasks may change.  One step is what happens
    between two suspensions of the coroutine:
    - a call whose object has at most [threshold] parts serializes and writes at once
      (no [await] on the way suspends); otherwise the rest of the serialization runs in
      another thread (core.pyx 788-800) on the objects as they are then, and writing comes later;
    - writing (socket.py 86) is one step; then [drain] waits and the call returns;
    - a cancelled call raises where it waits: in the thread's future or in [drain].

    Simplifications: the other thread reads all objects at one moment (the code reads
    them while tasks run); a call that finds the connection closed raises or returns, in both cases without writing
    (asyncio ignores writes to a lost connection); the receiving end is [recv_all] of FramingModel
    followed by [deserialize] of each message. *)
From Coq Require Import List NArith Arith Bool ZArith Lia.
From Verif Require Import Base FramingModel SerModel.
Import ListNotations.

(** How far a call is *)
Inductive phase (M : Type) :=
| Serializing (m : M)   (** in the thread *)
| Draining              (** written *)
| Returned
| Raised (written : bool).
Arguments Serializing {M} m. Arguments Draining {M}. Arguments Returned {M}. Arguments Raised {M} written.

Section Channel.
  Variables P C H : Type.
  Variable leaf_head : C -> H.
  Variable leaf_bufs : C -> list buffer.
  (** what [cloudpickle] encodes for the header: the count of core.pyx 700, and the header tree *)
  Definition header : Type := (option nat * tree P H)%type.
  Variable pickle : wire_header header -> bytes.
  Variable cuda_chunk : nat.
  Variable compress : N.
  Variable threshold : Z.       (** DEFAULT_SPAWN_THRESHOLD (aio.py 29): 100 *)

  Notation heap := (heap P C).
  Notation val := (val P).
  Notation mach := (mach P H buffer).
  Notation output := (output P H buffer).

  (** core.pyx 772-787: finished within the threshold *)
  Inductive quick (h : heap) (v : val) (o : output) : Prop :=
  | quick_leaf : start P C H buffer leaf_head leaf_bufs h v = Some (inl o) -> quick h v o
  | quick_loop m fuel m' : start P C H buffer leaf_head leaf_bufs h v = Some (inr m) ->
      mloop P C H buffer leaf_head leaf_bufs fuel h threshold m = Some (Finished m') ->
      result_of P H buffer false m' = Some o -> quick h v o.
  (** 788-800: to be finished by the thread *)
  Inductive slow (h : heap) (v : val) (m' : mach) : Prop :=
  | slow_loop m fuel : start P C H buffer leaf_head leaf_bufs h v = Some (inr m) ->
      mloop P C H buffer leaf_head leaf_bufs fuel h threshold m = Some (Overflow m') -> slow h v m'.
  Inductive resumed (h : heap) (m' : mach) (o : output) : Prop :=
  | resumed_loop fuel m2 : mloop P C H buffer leaf_head leaf_bufs fuel h 0 m' = Some (Finished m2) ->
      result_of P H buffer (0 <? m_n _ _ _ m') m2 = Some o -> resumed h m' o.

  (** aio.py 38-67: the bytes for what was serialized *)
  Definition message_of (o : output) : message header := match o with (meta, tr, bs) => Msg (meta, tr) bs end.
  Definition bytes_of (o : output) : option bytes := frame pickle cuda_chunk compress (message_of o).

  Record call := mkCall {
    owner : nat;            (** the task *)
    arg : val;              (** what is sent *)
    before : heap;          (** the objects when [send] was called *)
    after : heap;           (** the objects when the serialization was finished *)
    at_ : phase mach }.
  Record conn := mkConn {
    objects : heap;
    past : list heap;       (** all the states the objects have had *)
    open : bool;
    calls : list call;      (** in the order in which [send] was called *)
    wire : bytes;           (** handed to the transport *)
    order : list nat }.     (** which calls have written, in this order *)
  Definition initial (h : heap) : conn := mkConn h [h] true [] [] [].

  Definition busy (p : phase mach) : bool := match p with Serializing _ | Draining => true | _ => false end.
  Definition idle (s : conn) (i : nat) : Prop := forall c, In c (calls s) -> owner c = i -> busy (at_ c) = false.
  Definition move (l : list call) (k : nat) (h : heap) (p : phase mach) : list call :=
    match nth_error l k with
    | Some c => firstn k l ++ mkCall (owner c) (arg c) (before c) h p :: skipn (S k) l
    | None => l
    end.

  Inductive step (s : conn) : conn -> Prop :=
  (** Tasks change objects *)
  | change h : step s (mkConn h (past s ++ [h]) (open s) (calls s) (wire s) (order s))
  | close : step s (mkConn (objects s) (past s) false (calls s) (wire s) (order s))
  (** [send], small object *)
  | send_quick i v o f : idle s i -> quick (objects s) v o -> bytes_of o = Some f -> open s = true ->
      step s (mkConn (objects s) (past s) (open s) (calls s ++ [mkCall i v (objects s) (objects s) Draining])
                (wire s ++ f) (order s ++ [length (calls s)]))
  (** [struct.error], or the connection is closed *)
  | send_quick_fails i v o r : idle s i -> quick (objects s) v o -> bytes_of o = None \/ open s = false ->
      r = Raised false \/ (open s = false /\ r = Returned) ->
      step s (mkConn (objects s) (past s) (open s) (calls s ++ [mkCall i v (objects s) (objects s) r]) (wire s) (order s))
  (** [send], large object *)
  | send_slow i v m : idle s i -> slow (objects s) v m ->
      step s (mkConn (objects s) (past s) (open s) (calls s ++ [mkCall i v (objects s) (objects s) (Serializing m)]) (wire s) (order s))
  | write k c m o f : nth_error (calls s) k = Some c -> at_ c = Serializing m -> resumed (objects s) m o ->
      bytes_of o = Some f -> open s = true ->
      step s (mkConn (objects s) (past s) (open s) (move (calls s) k (objects s) Draining) (wire s ++ f) (order s ++ [k]))
  | write_fails k c m o r : nth_error (calls s) k = Some c -> at_ c = Serializing m -> resumed (objects s) m o ->
      bytes_of o = None \/ open s = false -> r = Raised false \/ (open s = false /\ r = Returned) ->
      step s (mkConn (objects s) (past s) (open s) (move (calls s) k (objects s) r) (wire s) (order s))
  (** socket.py 87-90 *)
  | drained k c : nth_error (calls s) k = Some c -> at_ c = Draining ->
      step s (mkConn (objects s) (past s) (open s) (move (calls s) k (after c) Returned) (wire s) (order s))
  (** cancelled, or [drain] raises *)
  | cancel_serializing k c m : nth_error (calls s) k = Some c -> at_ c = Serializing m ->
      step s (mkConn (objects s) (past s) (open s) (move (calls s) k (after c) (Raised false)) (wire s) (order s))
  | cancel_draining k c : nth_error (calls s) k = Some c -> at_ c = Draining ->
      step s (mkConn (objects s) (past s) (open s) (move (calls s) k (after c) (Raised true)) (wire s) (order s)).

  Inductive reach (h : heap) : conn -> Prop :=
  | reach_start : reach h (initial h)
  | reach_step s s' : reach h s -> step s s' -> reach h s'.
End Channel.
