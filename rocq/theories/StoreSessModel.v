(** * StoreSessModel: one client's connection to the rendezvous store over time

    The calls of one [TCPStore] object share one socket and run one at a time
    (the lock [activeOpLock_], cpp/collective/rendezvous/src/tcp_store.cpp 1142,
    1153, 1164, 1180, 1185, 1209, 1217, 1242, 1272, 1281, 1307).  This model adds
    time to StoreWireModel: calls, the server's work, answers on their way, and
    the receive time-out that [doWait] sets (lines 1254-1255, [setTimeout] 947-967)
    and never takes back (comment on line 1254).

    Simplifications: the connection stays up and sends succeed; a request for no
    key at all ([multiGet] of an empty list) is left out, as it has no answer to
    wait for; the server's answer to a request is any answer of the right kind
    (StoreModel says which); [watchKey] uses another socket. *)
From Coq Require Import Ascii String List Bool Arith NArith ZArith Lia.
From Verif Require Import PyStr StoreWireModel StoreWireProps.
Import ListNotations.
Open Scope list_scope.
Open Scope nat_scope.

Record sess := mkS {
  up : bytes;                      (** sent by the client, not yet read by the server *)
  down : bytes;                    (** sent by the server, not yet read by the client *)
  calls : nat;                     (** calls made so far; they are numbered from 0 *)
  served : nat;                    (** requests read by the server so far *)
  parked : list nat;               (** the [wait] requests it has not answered yet (lines 496-505) *)
  busy : option (nat * request);   (** the call in progress *)
  given : list (nat * reply);      (** answers sent: to which request, what *)
  got : list (nat * reply) }.      (** answers returned: by which call, what *)

Definition start : sess := mkS [] [] 0 0 [] None [] [].

Inductive what := Calling | Serving | Waking | Returning | Raising (f : fault).

Inductive step : what -> sess -> sess -> Prop :=
(** A call sends its request, and returns at once if it wants no answer. *)
| s_call u d c n p g o r sa w :
    sendable r -> r <> MultiGet [] -> (forall k, r <> WatchKey k) ->
    client_send r sa = (w, Sent) ->
    step Calling (mkS u d c n p None g o)
      (mkS (u ++ w) d (S c) n p (match client_recv r with Some _ => Some (c, r) | None => None end) g o)
(** The server reads a request ([queryFds], lines 232-281) and answers it. *)
| s_serve u d c n p b g o r ra u' ra' a sa w sa' :
    sendable r -> firstn 1 u = le 1 (query_type r) ->
    query (mkR u ra []) = (mkR u' ra' (performs r), Got tt) ->
    answer_to r a -> server_send a ([], sa) = ((w, sa'), Sent) ->
    step Serving (mkS u d c n p b g o) (mkS u' (d ++ w) c (S n) p b (g ++ [(n, a)]) o)
(** ... or there is nothing to answer ... *)
| s_serve_silent u d c n p b g o r ra u' ra' :
    sendable r -> firstn 1 u = le 1 (query_type r) ->
    query (mkR u ra []) = (mkR u' ra' (performs r), Got tt) ->
    (forall a, ~ answer_to r a) ->
    step Serving (mkS u d c n p b g o) (mkS u' d c (S n) p b g o)
(** ... or it is a [wait] for keys that are not all there (lines 496-505). *)
| s_park u d c n p b g o ks ra u' ra' :
    sendable (Wait ks) -> firstn 1 u = le 1 (query_type (Wait ks)) ->
    query (mkR u ra []) = (mkR u' ra' (performs (Wait ks)), Got tt) ->
    step Serving (mkS u d c n p b g o) (mkS u' d c (S n) (p ++ [n]) b g o)
(** Another client sets the last missing key (lines 328-339). *)
| s_wake u d c n p1 i p2 b g o sa w sa' :
    server_send RStop ([], sa) = ((w, sa'), Sent) ->
    step Waking (mkS u d c n (p1 ++ i :: p2) b g o) (mkS u (d ++ w) c n (p1 ++ p2) b (g ++ [(i, RStop)]) o)
(** The call in progress has read its answer and returns it. *)
| s_return u d c n p i r g o m ra d' ra' ac a :
    client_recv r = Some m -> m (mkR d ra []) = (mkR d' ra' ac, Got a) ->
    step Returning (mkS u d c n p (Some (i, r)) g o) (mkS u d' c n p None g (o ++ [(i, a)]))
(** The call in progress raises: the socket's time-out, or an answer it did not expect. *)
| s_raise u d c n p i r g o m ra d' ra' ac f :
    client_recv r = Some m -> m (mkR d ra []) = (mkR d' ra' ac, RecvFault f) ->
    (f = SocketTimeout \/ f = Unexpected) ->
    step (Raising f) (mkS u d c n p (Some (i, r)) g o) (mkS u d' c n p None g o).

Inductive run : list what -> sess -> Prop :=
| run_start : run [] start
| run_step l s k s' : run l s -> step k s s' -> run (l ++ [k]) s'.
