(** * From the call to the start of the method: the queues a request goes through

    One process with its asyncio event loop, one lock with its waiters, and the tasks that ask for it.  The same
    machine stands for
    - a pool with an actor: the lock is the actor's (core.pyx 533-538, 289-293) and a request "starts" when the method
      is called with the lock held; and
    - a proxy that forwards messages: the lock is the router's (router.py 139), "finished" means that
      [get_client] has returned (pool.py 317-331, core.py 202-222).

    Modelled: the reader of each channel (pool.py 572-600), the task it creates per message
    (428-445 and 386-391, 679-696: nothing in them waits before the lock), [asyncio.Lock] with cancelled waiters,
    [LocalActorRefMethod] (core.pyx 300-333), remote calls (context.py 230-262, core.py 140-170).
    Simplified: what a method does between start and finish is not modelled, it may finish at any time; a
    method that releases the lock at a [yield] counts as finished there, and asking again counts as another request.
    A task that is not waiting may act at any moment (in the code: only when the loop runs it).  A broken channel is
    not replaced by a new one for the same source. *)
From Coq Require Import List Arith Bool.
Import ListNotations.

(** The callbacks in the event loop's FIFO queue (asyncio.BaseEventLoop._ready) *)
Inductive item :=
| Reader (c : nat)   (** on_new_channel of channel [c] goes on *)
| Begin (m : nat)    (** the task created for request [m] runs for the first time *)
| Wake (m : nat)     (** the task of [m] runs again: its future in the lock's queue is done *)
| Local (t : nat).   (** task [t] goes on after [await ref.f.tell(..)], i.e. after sleep(0) *)
(** The future of a waiter in [asyncio.Lock._waiters] *)
Inductive fut := Pending | SetResult | FutCancelled.

Section machine.
  (** The task that makes request [m] *)
  Variable src : nat -> nat.
  (** Where this task's requests come from: over a channel, or (None) from a task of this process with a local reference *)
  Variable chan : nat -> option nat.
  (** The method of [m] is marked [no_lock] (core.pyx 268-281) *)
  Variable lockfree : nat -> bool.

  Record st := mk {
    ready : list item;
    links : nat -> list nat;        (** written to channel, not yet received *)
    outgoing : list nat;            (** the client awaits [client.send] *)
    waiters : list (nat * fut);
    holder : option nat;
    gone : list nat;                (** cancelled or lost before they started *)
    active : list nat;              (** local tasks that are not waiting *)
    calls : list nat;               (** direct calls that local tasks are waiting for *)
    loose : list nat;               (** local tasks that have not awaited a [tell] *)
    made : list nat;                (** all requests in the order they were made *)
    started : list nat;
    finished : list nat }.

  Definition is_cancelled (w : nat * fut) : bool := match snd w with FutCancelled => true | _ => false end.
  (** asyncio.Lock._wake_up_first *)
  Definition wake_first (ws : list (nat * fut)) : list (nat * fut) * list item :=
    match ws with (m, Pending) :: ws' => ((m, SetResult) :: ws', [Wake m]) | _ => (ws, []) end.
  (** asyncio.Lock.acquire up to the first wait: the waiters, the holder and the requests started *)
  Definition request (ws : list (nat * fut)) (h : option nat) (m : nat) : list (nat * fut) * option nat * list nat :=
    if lockfree m then (ws, h, [m])
    else match h with
         | None => if forallb is_cancelled ws then (ws, Some m, [m]) else (ws ++ [(m, Pending)], h, [])
         | Some _ => (ws ++ [(m, Pending)], h, [])
         end.
  Definition remove (m : nat) (l : list nat) : list nat := filter (fun x => negb (Nat.eqb x m)) l.
  Definition mem (m : nat) (l : list nat) : bool := existsb (Nat.eqb m) l.
  Definition remove_waiter (m : nat) (ws : list (nat * fut)) : list (nat * fut) := filter (fun w => negb (Nat.eqb (fst w) m)) ws.
  Fixpoint cancel_fut (m : nat) (ws : list (nat * fut)) : list (nat * fut) :=
    match ws with
    | [] => []
    | (x, f) :: ws' => if Nat.eqb x m then (x, match f with Pending => FutCancelled | f => f end) :: ws' else (x, f) :: cancel_fut m ws'
    end.
  Definition upd {A} (f : nat -> A) (c : nat) (v : A) : nat -> A := fun x => if Nat.eqb x c then v else f x.
  (** A local task that waits for the direct call [m] goes on *)
  Definition resume (m : nat) (ac ca : list nat) : list nat * list nat := if mem m ca then (src m :: ac, remove m ca) else (ac, ca).

  Inductive event := Quiet | Finished (m : nat) | Started.
  Inductive step : st -> event -> st -> Prop :=
  (** ** The client's side of a channel *)
  (** context.py 230-259, core.py 202-222 and 140-158: a call or a tell awaits [client.send] before anything else;
      so a task has one message at most on its way to the channel. *)
  | make_remote rd lk ou ws h gn ac ca lo ma sa fi m c : chan (src m) = Some c -> ~ In m ma -> (forall m', In m' ou -> src m' <> src m) ->
      step (mk rd lk ou ws h gn ac ca lo ma sa fi) Quiet (mk rd lk (ou ++ [m]) ws h gn ac ca lo (ma ++ [m]) sa fi)
  (** written: C61 *)
  | write rd lk ou ws h gn ac ca lo ma sa fi m c : chan (src m) = Some c -> In m ou ->
      step (mk rd lk ou ws h gn ac ca lo ma sa fi) Quiet (mk rd (upd lk c (lk c ++ [m])) (remove m ou) ws h gn ac ca lo ma sa fi)
  (** [client.send] raises or is cancelled *)
  | send_fails rd lk ou ws h gn ac ca lo ma sa fi m : In m ou ->
      step (mk rd lk ou ws h gn ac ca lo ma sa fi) Quiet (mk rd lk (remove m ou) ws h (m :: gn) ac ca lo ma sa fi)
  (** the connection is lost with what was in it *)
  | connection_lost rd lk ou ws h gn ac ca lo ma sa fi c :
      step (mk rd lk ou ws h gn ac ca lo ma sa fi) Quiet (mk rd (upd lk c []) ou ws h (lk c ++ gn) ac ca lo ma sa fi)
  (** ** pool.py 572-591: the reader *)
  (** data has arrived (or another part of the message has been decoded) *)
  | reader_ready rd lk ou ws h gn ac ca lo ma sa fi c : ~ In (Reader c) rd ->
      step (mk rd lk ou ws h gn ac ca lo ma sa fi) Quiet (mk (rd ++ [Reader c]) lk ou ws h gn ac ca lo ma sa fi)
  (** [message = await channel.recv()] still has to wait *)
  | reader_waits rd lk ou ws h gn ac ca lo ma sa fi c :
      step (mk (Reader c :: rd) lk ou ws h gn ac ca lo ma sa fi) Quiet (mk rd lk ou ws h gn ac ca lo ma sa fi)
  (** a message: [create_task], then [sleep(0)] *)
  | reader_takes rd lk ou ws h gn ac ca lo ma sa fi c m q : lk c = m :: q ->
      step (mk (Reader c :: rd) lk ou ws h gn ac ca lo ma sa fi) Quiet (mk (rd ++ [Begin m; Reader c]) (upd lk c q) ou ws h gn ac ca lo ma sa fi)
  (** ** Tasks of requests *)
  (** process_message, send, __on_receive__ up to the lock *)
  | begin rd lk ou ws h gn ac ca lo ma sa fi m ws' h' sa' : ~ In m gn -> request ws h m = (ws', h', sa') ->
      step (mk (Begin m :: rd) lk ou ws h gn ac ca lo ma sa fi) Started (mk rd lk ou ws' h' gn ac ca lo ma (sa ++ sa') fi)
  (** cancelled before it ran *)
  | begin_cancelled rd lk ou ws h gn ac ca lo ma sa fi m : In m gn ->
      step (mk (Begin m :: rd) lk ou ws h gn ac ca lo ma sa fi) Quiet (mk rd lk ou ws h gn ac ca lo ma sa fi)
  (** asyncio.Lock.acquire after [await fut] *)
  | wake rd lk ou ws h gn ac ca lo ma sa fi m : In (m, SetResult) ws -> ~ In m gn ->
      step (mk (Wake m :: rd) lk ou ws h gn ac ca lo ma sa fi) Started (mk rd lk ou (remove_waiter m ws) (Some m) gn ac ca lo ma (sa ++ [m]) fi)
  (** ... with a CancelledError *)
  | wake_cancelled rd lk ou ws h gn ac ca lo ma sa fi m ws' w ac' ca' : In m gn -> resume m ac ca = (ac', ca') ->
      (match h with None => wake_first (remove_waiter m ws) | Some _ => (remove_waiter m ws, []) end) = (ws', w) ->
      step (mk (Wake m :: rd) lk ou ws h gn ac ca lo ma sa fi) Quiet (mk (rd ++ w) lk ou ws' h gn ac' ca' lo ma sa fi)
  (** the method returns or raises: asyncio.Lock.release *)
  | finish rd lk ou ws gn ac ca lo ma sa fi m ws' w ac' ca' : wake_first ws = (ws', w) -> resume m ac ca = (ac', ca') ->
      step (mk rd lk ou ws (Some m) gn ac ca lo ma sa fi) (Finished m) (mk (rd ++ w) lk ou ws' None gn ac' ca' lo ma sa (fi ++ [m]))
  | finish_free rd lk ou ws h gn ac ca lo ma sa fi m ac' ca' : lockfree m = true -> In m sa -> ~ In m fi -> resume m ac ca = (ac', ca') ->
      step (mk rd lk ou ws h gn ac ca lo ma sa fi) (Finished m) (mk rd lk ou ws h gn ac' ca' lo ma sa (fi ++ [m]))
  (** ** Cancellation: pool.py 549-565 ([cancel]: tasks that wait or run), Task.cancel by the user *)
  | cancel_begin rd lk ou ws h gn ac ca lo ma sa fi m : In (Begin m) rd -> ~ In m gn ->
      step (mk rd lk ou ws h gn ac ca lo ma sa fi) Quiet (mk rd lk ou ws h (m :: gn) ac ca lo ma sa fi)
  | cancel_pending rd lk ou ws h gn ac ca lo ma sa fi m : In (m, Pending) ws -> ~ In m gn ->
      step (mk rd lk ou ws h gn ac ca lo ma sa fi) Quiet (mk (rd ++ [Wake m]) lk ou (cancel_fut m ws) h (m :: gn) ac ca lo ma sa fi)
  (** woken but not run yet: [Task._must_cancel] *)
  | cancel_woken rd lk ou ws h gn ac ca lo ma sa fi m : In (m, SetResult) ws -> ~ In m gn ->
      step (mk rd lk ou ws h gn ac ca lo ma sa fi) Quiet (mk rd lk ou ws h (m :: gn) ac ca lo ma sa fi)
  (** ** Local references: core.pyx 313-333 *)
  (** [await ref.f.tell(..)]: create_task, then sleep(0) *)
  | tell rd lk ou ws h gn ac ca lo ma sa fi m a1 a2 : chan (src m) = None -> ~ In m ma -> ac = a1 ++ src m :: a2 ->
      step (mk rd lk ou ws h gn ac ca lo ma sa fi) Quiet (mk (rd ++ [Begin m; Local (src m)]) lk ou ws h gn (a1 ++ a2) ca lo (ma ++ [m]) sa fi)
  (** [ref.f.tell(..)] without await *)
  | tell_only rd lk ou ws h gn ac ca lo ma sa fi m : chan (src m) = None -> ~ In m ma -> In (src m) ac ->
      step (mk rd lk ou ws h gn ac ca lo ma sa fi) Quiet (mk (rd ++ [Begin m]) lk ou ws h gn ac ca (src m :: lo) (ma ++ [m]) sa fi)
  (** [await ref.f(..)]: the lock is requested at once *)
  | call rd lk ou ws h gn ac ca lo ma sa fi m a1 a2 ws' h' sa' : chan (src m) = None -> ~ In m ma -> ac = a1 ++ src m :: a2 ->
      request ws h m = (ws', h', sa') ->
      step (mk rd lk ou ws h gn ac ca lo ma sa fi) Started (mk rd lk ou ws' h' gn (a1 ++ a2) (ca ++ [m]) lo (ma ++ [m]) (sa ++ sa') fi)
  | local_on rd lk ou ws h gn ac ca lo ma sa fi t :
      step (mk (Local t :: rd) lk ou ws h gn ac ca lo ma sa fi) Quiet (mk rd lk ou ws h gn (t :: ac) ca lo ma sa fi).

  (** Nothing sent yet; the local tasks [ts] run. *)
  Definition init (ts : list nat) : st :=
    mk [] (fun _ => []) [] [] None [] ts [] [] [] [] [].
  Inductive run (ts : list nat) : st -> Prop :=
  | run_init : run ts (init ts)
  | run_step s e s' : run ts s -> step s e s' -> run ts s'.
End machine.

(** ** A forwarder
    pool.py 317-331, core.py 202-222: when [get_client] has returned, the message is serialised and
    written.  [small m]: not more than 100 objects, serialised at once (C61); other messages are serialised in a thread.
    [failed]: connecting, serialising or writing raises. *)
Section forwarder.
  Variable src : nat -> nat.
  Variable chan : nat -> option nat.
  Variable small : nat -> bool.
  Record fw := mkf { base : st; late : list nat; failed : list nat; written : list nat }.
  Definition quiet (e : event) : Prop := match e with Finished _ => False | _ => True end.
  Inductive fstep : fw -> fw -> Prop :=
  | f_quiet s s' e l f w : step src chan (fun _ => false) s e s' -> quiet e -> fstep (mkf s l f w) (mkf s' l f w)
  | f_write s s' m l f w : step src chan (fun _ => false) s (Finished m) s' -> small m = true -> fstep (mkf s l f w) (mkf s' l f (w ++ [m]))
  | f_thread s s' m l f w : step src chan (fun _ => false) s (Finished m) s' -> small m = false -> fstep (mkf s l f w) (mkf s' (l ++ [m]) f w)
  | f_fail s s' m l f w : step src chan (fun _ => false) s (Finished m) s' -> fstep (mkf s l f w) (mkf s' l (m :: f) w)
  | f_late s m l f w : In m l -> fstep (mkf s l f w) (mkf s (remove m l) f (w ++ [m]))
  | f_late_fail s m l f w : In m l -> fstep (mkf s l f w) (mkf s (remove m l) (m :: f) w).
  Inductive frun (ts : list nat) : fw -> Prop :=
  | frun_init : frun ts (mkf (init ts) [] [] [])
  | frun_step x y : frun ts x -> fstep x y -> frun ts y.
End forwarder.
