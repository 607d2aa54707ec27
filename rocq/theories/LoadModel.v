(** * Calls over one connection when arguments or results cannot be transferred

    Source: python/xoscar/backends/core.py 90-145 (_listen), 147-172 (call_with_client); python/xoscar/backends/pool.py
    393-427 (_send_channel), 429-445 (process_message), 573-598 (on_new_channel); python/xoscar/backends/communication/socket.py
    78-113.

    One connection between a client and a pool, with any number of calls on it.  A call's argument can be serialized
    by the client or not ([arg_dumps]), deserialized by the pool or not ([arg_loads]), and the same for its result.
    Simplifications: cancellation, a stopping pool and other failures of the connection are left out
    (C08, C45, C65); a call made when the client has found the connection closed uses a new connection and is not
    looked at; the future of a call whose argument cannot be serialized stays in the client's
    table (core.py 152), where nobody waits for it: it is left out. *)
From Coq Require Import List Arith Bool.
Import ListNotations.

(** How a call may fail *)
Inductive reason :=
| ArgDump     (** its own argument could not be serialized *)
| ResDump     (** SendMessageFailed: its own result could not be serialized *)
| ResLoad     (** its own result could not be deserialized; the exception is the one raised by that *)
| ArgLoad     (** its own argument could not be deserialized; the exception is the one raised by that *)
| Closed.     (** ServerClosed *)
Inductive event := Called (id : nat) | Executed (id : nat) | Done (id : nat) | Failed (id : nat) (r : reason).

(** What travels back: the result, or SendMessageFailed *)
Inductive reply := Value | CouldNotSend.

Record st := mk {
  used : list nat;                  (** ids of all calls so far (new_message_id: never twice) *)
  table : list nat;                 (** futures of the client *)
  requests : list nat;              (** on the way *)
  running : list nat;               (** process_message tasks *)
  replies : list (nat * reply);     (** on the way back *)
  server_open : bool;
  client_open : bool }.
Definition start : st := mk [] [] [] [] [] true true.

Section Load.
  Variables arg_dumps arg_loads res_dumps res_loads : nat -> bool.

  Inductive step : st -> list event -> st -> Prop :=
  | s_call : forall s id, client_open s = true -> ~ In id (used s) -> arg_dumps id = true ->
      (* core.py 151-156 *)
      step s [Called id] (mk (id :: used s) (id :: table s) (requests s ++ [id]) (running s) (replies s) (server_open s) (client_open s))
  | s_call_fails : forall s id, client_open s = true -> ~ In id (used s) -> arg_dumps id = false ->
      (* 156: raised by send before anything is written (C61) *)
      step s [Called id; Failed id ArgDump] (mk (id :: used s) (table s) (requests s) (running s) (replies s) (server_open s) (client_open s))
  | s_read : forall s id rest, server_open s = true -> requests s = id :: rest -> arg_loads id = true ->
      (* pool.py 577, 589 *)
      step s [] (mk (used s) (table s) rest (running s ++ [id]) (replies s) (server_open s) (client_open s))
  | s_read_fails : forall s id rest, server_open s = true -> requests s = id :: rest -> arg_loads id = false ->
      (* 577 raises DeserializeMessageFailed, which is none of the exceptions of 578; 595 closes the channel *)
      step s [] (mk (used s) (table s) rest (running s) (replies s) false (client_open s))
  | s_run : forall s id l1 l2, running s = l1 ++ id :: l2 ->
      (* 441, 445: the reply is sent, or an error in its place (397-427), or nothing (398-400) *)
      step s [Executed id]
        (mk (used s) (table s) (requests s) (l1 ++ l2)
            (if server_open s then replies s ++ [(id, if res_dumps id then Value else CouldNotSend)] else replies s)
            (server_open s) (client_open s))
  | s_reply : forall s id r rest, client_open s = true -> replies s = (id, r) :: rest -> In id (table s) ->
      (* core.py 93-114 *)
      step s [match r with Value => if res_loads id then Done id else Failed id ResLoad | CouldNotSend => Failed id ResDump end]
        (mk (used s) (remove Nat.eq_dec id (table s)) (requests s) (running s) rest (server_open s) (client_open s))
  | s_eof : forall s, client_open s = true -> server_open s = false ->
      (* 94-105, 116-138; replies on the way may be lost (the pool's host resets a connection that is closed with requests unread) *)
      step s (map (fun id => Failed id Closed) (table s))
        (mk (used s) [] (requests s) (running s) [] (server_open s) false).

  Inductive run : list event -> st -> Prop :=
  | run_start : run [] start
  | run_step : forall tr s out s', run tr s -> step s out s' -> run (tr ++ out) s'.
End Load.
