(** Model of a whole call: from the caller through any number of proxies to the
    actor and back.
    Sources: python/xoscar/backends/core.py (_listen 89-144, call_with_client
    146-172, call 202-222), python/xoscar/backends/context.py (_wait 113-124,
    send 230-264), python/xoscar/backends/pool.py (forward 317-332,
    _send_channel 393-427, process_message 429-446, on_new_channel 573-598,
    send of a pool 681-697 and of a main pool 1134-1150), python/xoscar/core.pyx
    (__pyx_actor_method_wrapper 284-295, LocalActorRefMethod 300-333,
    __on_receive__ 507-556).

    The state describes the calls on one actor, in all processes.  What is
    simplified:
    - messages on their way may overtake each other (their order is the matter
      of C61 and C62): more runs than the code has;
    - ids of messages are new (32 random bytes);
    - a method is a coroutine that runs in steps, each of which changes the
      actor's state; an exception that it raises is a result; what runs after
      the lock was released (generators, awaitables in results: C10, C12, C28)
      and methods without the lock are left out;
    - a cancellation, however it comes about (C45), may hit a task at any time;
    - [tell] is a call whose answer nobody waits for (context.py 263-264). *)
From Coq Require Import List Arith Bool Lia.
Import ListNotations.

Section Linear.
  Variables St M K R : Type.
  (** The coroutine of a call, and one step of it: it goes on or returns. *)
  Variable start : M -> K.
  Variable resume : K -> St -> St * (K + R).
  Variable initial : St.
  (** Connections have a client end and a server end, both in some process; the
      actor lives in the process [home]. *)
  Variables src dst : nat -> nat.
  Variable home : nat.

  (** What a caller gets.  [NoAnswer]: an error that does not come from the
      method (connection lost, cancelled, result cannot be sent), or the return
      of [tell]. *)
  Inductive outcome := Answer (r : R) | NoAnswer.

  Inductive event :=
  | Invoke (id : nat) (m : M)
  | Begin (id : nat)              (** the method starts, under the actor's lock *)
  | Done (id : nat) (r : R)       (** it has returned *)
  | Aborted (id : nat)            (** it was cancelled, or its process died *)
  | Return (id : nat) (o : outcome)
  | Trouble                       (** a connection or process is lost, a task is cancelled, a message is damaged *)
  | Recreated.                    (** the actor's process was restarted and the actor created again *)

  (** Where the result of an execution goes: the connection of the request, a
      caller in the same process, or nowhere (a local [tell]). *)
  Inductive origin := Via (c : nat) | Local | Nowhere.
  (** Who waits for a reply on a connection: a caller, a proxy's task that
      answers on another connection, or nobody any more. *)
  Inductive owner := User | Forward (c : nat) | Nobody.

  Record st := mk {
    calls : list nat;                        (** ids used so far *)
    wire : list (nat * nat * M);             (** requests on their way: connection, id, method *)
    tasks : list (nat * nat * M);            (** tasks made by [on_new_channel] (pool.py 589) *)
    queue : list (origin * nat * M);         (** waiting for the actor's lock *)
    holder : option (origin * nat * K);
    actor : St;
    replies : list (nat * nat * option R);   (** on their way back; [None]: an error message *)
    pending : list (nat * nat * owner);      (** [_client_to_message_futures] of all processes *)
    closed : list nat;                       (** lost connections *)
    dead : list nat }.                       (** processes that have ended *)

  Definition is_closed (s : st) (c : nat) : bool := existsb (Nat.eqb c) (closed s).

  (** A reply is sent on [c] (pool.py 393-427; dropped if [c] is closed, 398-400). *)
  Definition reply_on (s : st) (c id : nat) (x : option R) : list (nat * nat * option R) :=
    if is_closed s c then [] else [(c, id, x)].
  Definition to_outcome (x : option R) : outcome :=
    match x with Some r => Answer r | None => NoAnswer end.

  (** An execution with origin [o] is over: what the caller sees, what is sent. *)
  Definition told (o : origin) (id : nat) (x : option R) : list event :=
    match o with Local => [Return id (to_outcome x)] | _ => [] end.
  Definition sent (s : st) (o : origin) (id : nat) (x : option R) : list (nat * nat * option R) :=
    match o with Via c => reply_on s c id x | _ => [] end.

  (** A future is completed (core.py 107-111, 119-120, 137-138). *)
  Definition woken (id : nat) (o : owner) (x : option R) : list event :=
    match o with User => [Return id (to_outcome x)] | _ => [] end.
  Definition passed (s : st) (id : nat) (o : owner) (x : option R) : list (nat * nat * option R) :=
    match o with Forward c => reply_on s c id x | _ => [] end.

  Definition key (c id : nat) (e : nat * nat * owner) : bool :=
    (fst (fst e) =? c) && (snd (fst e) =? id).
  (** core.py 151: [futures[client][message_id] = wait_response] *)
  Definition register (c id : nat) (o : owner) (l : list (nat * nat * owner)) :=
    filter (fun e => negb (key c id e)) l ++ [(c, id, o)].
  Definition on_conn (c : nat) (e : nat * nat * owner) : bool := fst (fst e) =? c.

  (** core.py 116-120, 134-138: every future of the connection fails. *)
  Definition failed_events (l : list (nat * nat * owner)) : list event :=
    flat_map (fun e => woken (snd (fst e)) (snd e) None) l.
  Definition failed_replies (s : st) (l : list (nat * nat * owner)) : list (nat * nat * option R) :=
    flat_map (fun e => passed s (snd (fst e)) (snd e) None) l.

  Definition set_wire (s : st) x := mk (calls s) x (tasks s) (queue s) (holder s) (actor s) (replies s) (pending s) (closed s) (dead s).

  Inductive step : st -> list event -> st -> Prop :=
  | s_invoke : forall s id m c, ~ In id (calls s) -> is_closed s c = false -> ~ In (src c) (dead s) ->
      (* context.py 254-259, core.py 202-222, 146-155 *)
      step s [Invoke id m]
        (mk (id :: calls s) (wire s ++ [(c, id, m)]) (tasks s) (queue s) (holder s) (actor s) (replies s)
            (register c id User (pending s)) (closed s) (dead s))
  | s_invoke_failed : forall s id m c (on_its_way : bool), ~ In id (calls s) ->
      (* 156-162: [send] raised; the request may have been written nevertheless *)
      step s [Invoke id m; Trouble; Return id NoAnswer]
        (mk (id :: calls s) (wire s ++ (if on_its_way then [(c, id, m)] else [])) (tasks s) (queue s) (holder s) (actor s)
            (replies s) (register c id Nobody (pending s)) (closed s) (dead s))
  | s_invoke_local : forall s id m, ~ In id (calls s) -> ~ In home (dead s) ->
      (* core.pyx 315-318, 284-295 *)
      step s [Invoke id m]
        (mk (id :: calls s) (wire s) (tasks s) (queue s ++ [(Local, id, m)]) (holder s) (actor s) (replies s)
            (pending s) (closed s) (dead s))
  | s_tell_local : forall s id m, ~ In id (calls s) -> ~ In home (dead s) ->
      (* core.pyx 328-333 *)
      step s [Invoke id m; Return id NoAnswer]
        (mk (id :: calls s) (wire s) (tasks s) (queue s ++ [(Nowhere, id, m)]) (holder s) (actor s) (replies s)
            (pending s) (closed s) (dead s))
  | s_give_up : forall s p1 c id p2, pending s = p1 ++ (c, id, User) :: p2 ->
      (* [tell]; or the caller was cancelled while waiting (context.py 114-121) *)
      step s [Return id NoAnswer]
        (mk (calls s) (wire s) (tasks s) (queue s) (holder s) (actor s) (replies s)
            (p1 ++ (c, id, Nobody) :: p2) (closed s) (dead s))
  | s_stop_forwarding : forall s p1 c id c0 p2, pending s = p1 ++ (c, id, Forward c0) :: p2 ->
      (* the task of a proxy was cancelled while it waited (core.py 167) *)
      step s [Trouble]
        (mk (calls s) (wire s) (tasks s) (queue s) (holder s) (actor s) (replies s ++ reply_on s c0 id None)
            (p1 ++ (c, id, Nobody) :: p2) (closed s) (dead s))
  | s_receive : forall s w1 c id m w2, wire s = w1 ++ (c, id, m) :: w2 -> ~ In (dst c) (dead s) ->
      (* pool.py 577, 589 *)
      step s []
        (mk (calls s) (w1 ++ w2) (tasks s ++ [(c, id, m)]) (queue s) (holder s) (actor s) (replies s)
            (pending s) (closed s) (dead s))
  | s_enter : forall s t1 c id m t2, tasks s = t1 ++ (c, id, m) :: t2 -> dst c = home ->
      (* pool.py 688-689, core.pyx 526: asks for the lock *)
      step s []
        (mk (calls s) (wire s) (t1 ++ t2) (queue s ++ [(Via c, id, m)]) (holder s) (actor s) (replies s)
            (pending s) (closed s) (dead s))
  | s_forward : forall s t1 c id m t2 c', tasks s = t1 ++ (c, id, m) :: t2 -> dst c <> home ->
      src c' = dst c -> is_closed s c' = false ->
      (* pool.py 332, 1150; core.py 202-222 *)
      step s []
        (mk (calls s) (wire s ++ [(c', id, m)]) (t1 ++ t2) (queue s) (holder s) (actor s) (replies s)
            (register c' id (Forward c) (pending s)) (closed s) (dead s))
  | s_refuse : forall s t1 c id m t2, tasks s = t1 ++ (c, id, m) :: t2 ->
      (* no such actor, no connection to the next process, cancelled *)
      step s [Trouble]
        (mk (calls s) (wire s) (t1 ++ t2) (queue s) (holder s) (actor s) (replies s ++ reply_on s c id None)
            (pending s) (closed s) (dead s))
  | s_acquire : forall s o id m q, queue s = (o, id, m) :: q -> holder s = None ->
      (* core.pyx 526-530 *)
      step s [Begin id]
        (mk (calls s) (wire s) (tasks s) q (Some (o, id, start m)) (actor s) (replies s) (pending s) (closed s) (dead s))
  | s_work : forall s o id k k' a, holder s = Some (o, id, k) -> resume k (actor s) = (a, inl k') ->
      step s []
        (mk (calls s) (wire s) (tasks s) (queue s) (Some (o, id, k')) a (replies s) (pending s) (closed s) (dead s))
  | s_done : forall s o id k r a, holder s = Some (o, id, k) -> resume k (actor s) = (a, inr r) ->
      step s (Done id r :: told o id (Some r))
        (mk (calls s) (wire s) (tasks s) (queue s) None a (replies s ++ sent s o id (Some r)) (pending s) (closed s) (dead s))
  | s_done_unsent : forall s o id k r a, holder s = Some (o, id, k) -> resume k (actor s) = (a, inr r) ->
      (* pool.py 401-427: the result cannot be serialized *)
      step s (Done id r :: Trouble :: told o id None)
        (mk (calls s) (wire s) (tasks s) (queue s) None a (replies s ++ sent s o id None) (pending s) (closed s) (dead s))
  | s_abort : forall s o id k, holder s = Some (o, id, k) ->
      (* CancelledError inside the method *)
      step s (Aborted id :: Trouble :: told o id None)
        (mk (calls s) (wire s) (tasks s) (queue s) None (actor s) (replies s ++ sent s o id None) (pending s) (closed s) (dead s))
  | s_drop : forall s q1 o id m q2, queue s = q1 ++ (o, id, m) :: q2 ->
      (* CancelledError while waiting for the lock *)
      step s (Trouble :: told o id None)
        (mk (calls s) (wire s) (tasks s) (q1 ++ q2) (holder s) (actor s) (replies s ++ sent s o id None) (pending s) (closed s) (dead s))
  | s_answer : forall s r1 c id x r2 p1 o p2, replies s = r1 ++ (c, id, x) :: r2 ->
      pending s = p1 ++ (c, id, o) :: p2 ->
      (* core.py 107-111 *)
      step s (woken id o x)
        (mk (calls s) (wire s) (tasks s) (queue s) (holder s) (actor s) (r1 ++ r2 ++ passed s id o x) (p1 ++ p2) (closed s) (dead s))
  | s_answer_damaged : forall s r1 c id x r2 p1 o p2, replies s = r1 ++ (c, id, x) :: r2 ->
      pending s = p1 ++ (c, id, o) :: p2 ->
      (* 112-115: the reply cannot be deserialized *)
      step s (Trouble :: woken id o None)
        (mk (calls s) (wire s) (tasks s) (queue s) (holder s) (actor s) (r1 ++ r2 ++ passed s id o None) (p1 ++ p2) (closed s) (dead s))
  | s_answer_unknown : forall s r1 c id x r2, replies s = r1 ++ (c, id, x) :: r2 ->
      ~ In (c, id) (map fst (pending s)) ->
      (* KeyError in 107, so 116-120 *)
      step s (Trouble :: failed_events (filter (on_conn c) (pending s)))
        (mk (calls s) (wire s) (tasks s) (queue s) (holder s) (actor s)
            (r1 ++ r2 ++ failed_replies s (filter (on_conn c) (pending s)))
            (filter (fun e => negb (on_conn c e)) (pending s)) (closed s) (dead s))
  | s_lose : forall s c,
      (* 92-106, 116-120, 134-138; requests that were written may still be handled *)
      step s (Trouble :: failed_events (filter (on_conn c) (pending s)))
        (mk (calls s) (wire s) (tasks s) (queue s) (holder s) (actor s)
            (filter (fun e => negb (fst (fst e) =? c)) (replies s) ++ failed_replies s (filter (on_conn c) (pending s)))
            (filter (fun e => negb (on_conn c e)) (pending s)) (c :: closed s) (dead s))
  | s_crash : forall s n, n <> home ->
      step s [Trouble]
        (mk (calls s) (wire s) (filter (fun t => negb (dst (fst (fst t)) =? n)) (tasks s)) (queue s) (holder s) (actor s)
            (replies s) (filter (fun e => negb (src (fst (fst e)) =? n)) (pending s)) (closed s) (n :: dead s))
  | s_crash_home : forall s,
      step s (Trouble :: match holder s with Some (_, id, _) => [Aborted id] | None => [] end)
        (mk (calls s) (wire s) (filter (fun t => negb (dst (fst (fst t)) =? home)) (tasks s)) [] None (actor s)
            (replies s) (filter (fun e => negb (src (fst (fst e)) =? home)) (pending s)) (closed s) (home :: dead s))
  | s_recreate : forall s, In home (dead s) ->
      (* pool.py 1462-1476 and python/xoscar/backends/indigen/pool.py 495-506: a new process at the same
         address, in which the actor is created again from the arguments of its creation; nothing of the
         old process is left.  Simplified: the process is up and the actor there in one step (calls that
         arrive in between are refused: [s_invoke_failed]); a connection number stands for the new connection, too, so that
         what is sent later on it may be answered (more runs than the code has, where the caller connects
         again). *)
      step s [Trouble; Recreated]
        (mk (calls s) (filter (fun t => negb (dst (fst (fst t)) =? home)) (wire s))
            (filter (fun t => negb (dst (fst (fst t)) =? home)) (tasks s)) [] None initial
            (replies s) (filter (fun e => negb (src (fst (fst e)) =? home)) (pending s)) (closed s)
            (remove Nat.eq_dec home (dead s))).

  Definition start_state : st := mk [] [] [] [] None initial [] [] [] [].

  Inductive run : list event -> st -> Prop :=
  | run_init : run [] start_state
  | run_step : forall tr s out s', run tr s -> step s out s' -> run (tr ++ out) s'.
End Linear.

Arguments Answer {R} r.
Arguments NoAnswer {R}.
Arguments Invoke {M R} id m.
Arguments Begin {M R} id.
Arguments Done {M R} id r.
Arguments Aborted {M R} id.
Arguments Return {M R} id o.
Arguments Trouble {M R}.
Arguments Recreated {M R}.
