(** * DummyModel: channels inside one process

    Models [DummyChannel] of /repo/python/xoscar/backends/communication/dummy.py
    (lines 36-92): a pair of [asyncio.Queue]s and a common [closed] event, made by
    [DummyClient.connect] (lines 222-227).  The two ends are called [false] (client)
    and [true] (server).

    [asyncio.Queue] is modelled after CPython's Lib/asyncio/queues.py: [get] waits in
    the deque [_getters]; [put_nowait] wakes the first getter that is not done; a woken
    getter runs later, tries again if the queue is empty, and passes the wake-up on
    if it has been cancelled meanwhile.

    Simplifications.  Queues are unbounded (as created).  The [except RuntimeError]
    branch of [recv] (event loop closed) is left out.  Messages are numbers: they are
    passed by reference, never copied. *)
From Coq Require Import List Bool Arith Lia.
Import ListNotations.

Definition msg := nat.
Definition task := nat.

(** A queue with the tasks that are in [get].
    [getters]: futures in the deque, with [true] if cancelled;
    [ready]: tasks whose future has a result and which have not run yet, with [true] if the
    task was cancelled meanwhile; [dying]: tasks whose future was cancelled. *)
Record queue := mkQ { items : list msg; getters : list (task * bool); ready : list (task * bool); dying : list task }.
Definition empty_queue : queue := mkQ [] [] [] [].

(** queues.py [_wakeup_next] *)
Fixpoint wakeup (gs : list (task * bool)) : list (task * bool) * list (task * bool) :=
  match gs with
  | [] => ([], [])
  | (t, true) :: gs => wakeup gs
  | (t, false) :: gs => (gs, [(t, false)])
  end.
Definition wakeup_next (q : queue) : queue :=
  let (gs, r) := wakeup (getters q) in mkQ (items q) gs (ready q ++ r) (dying q).

(** queues.py [put_nowait] *)
Definition put_nowait (q : queue) (m : msg) : queue :=
  wakeup_next (mkQ (items q ++ [m]) (getters q) (ready q) (dying q)).

Inductive outcome := Got (m : msg) | Cancelled | Closed | Sent | Nothing.

(** queues.py [get]: one round, by task [t] *)
Definition get (q : queue) (t : task) : queue * outcome :=
  match items q with
  | [] => (mkQ [] (getters q ++ [(t, false)]) (ready q) (dying q), Nothing)
  | m :: ms => (mkQ ms (getters q) (ready q) (dying q), Got m)
  end.

Fixpoint drop (t : task) (l : list (task * bool)) : list (task * bool) :=
  match l with [] => [] | (t', b) :: l => if t' =? t then l else (t', b) :: drop t l end.
Fixpoint drop_task (t : task) (l : list task) : list task :=
  match l with [] => [] | t' :: l => if t' =? t then l else t' :: drop_task t l end.
Fixpoint mark (t : task) (l : list (task * bool)) : list (task * bool) :=
  match l with [] => [] | (t', b) :: l => if t' =? t then (t', true) :: l else (t', b) :: mark t l end.
Fixpoint lookup (t : task) (l : list (task * bool)) : option bool :=
  match l with [] => None | (t', b) :: l => if t' =? t then Some b else lookup t l end.

(** The event loop runs task [t], which waits in [get]. *)
Definition resume (q : queue) (t : task) : queue * outcome :=
  match lookup t (ready q) with
  | Some false => get (mkQ (items q) (getters q) (drop t (ready q)) (dying q)) t
  | Some true =>
      let q' := mkQ (items q) (getters q) (drop t (ready q)) (dying q) in
      ((match items q with [] => q' | _ => wakeup_next q' end), Cancelled)
  | None =>
      if existsb (Nat.eqb t) (dying q)
      then (mkQ (items q) (drop t (getters q)) (ready q) (drop_task t (dying q)), Cancelled)
      else (q, Nothing)
  end.

(** [task.cancel()] *)
Definition cancel (q : queue) (t : task) : queue :=
  match lookup t (ready q) with
  | Some _ => mkQ (items q) (getters q) (mark t (ready q)) (dying q)
  | None =>
      match lookup t (getters q) with
      | Some false => mkQ (items q) (mark t (getters q)) (ready q) (t :: dying q)
      | _ => q
      end
  end.

(** The pair of channels: [inq e] is read at end [e], written at the other one. *)
Record pair := mkP { closed : bool; inq0 : queue; inq1 : queue }.
Definition inq (p : pair) (e : bool) : queue := if e then inq1 p else inq0 p.
Definition set_inq (p : pair) (e : bool) (q : queue) : pair :=
  if e then mkP (closed p) (inq0 p) q else mkP (closed p) q (inq1 p).

Inductive op :=
| Send (e : bool) (m : msg)      (* channel.send at end e: dummy.py 69-74 *)
| Recv (e : bool) (t : task)     (* channel.recv at end e, in a new task: 76-84 *)
| Resume (e : bool) (t : task)
| Cancel (e : bool) (t : task)
| Close.                         (* at either end: 86-88 *)

Definition step (p : pair) (o : op) : pair * outcome :=
  match o with
  | Send e m => if closed p then (p, Closed) else (set_inq p (negb e) (put_nowait (inq p (negb e)) m), Sent)
  | Recv e t => if closed p then (p, Closed) else let (q, r) := get (inq p e) t in (set_inq p e q, r)
  | Resume e t => let (q, r) := resume (inq p e) t in (set_inq p e q, r)
  | Cancel e t => (set_inq p e (cancel (inq p e) t), Nothing)
  | Close => (mkP true (inq0 p) (inq1 p), Nothing)
  end.

Definition start : pair := mkP false empty_queue empty_queue.

(** Histories, newest first; each [Recv] is made by a new task *)
Definition fresh (t : task) (h : list (op * outcome)) : Prop :=
  forall e r, ~ In (Recv e t, r) h.
Inductive reach : pair -> list (op * outcome) -> Prop :=
| reach_start : reach start []
| reach_step p h o p' r : reach p h -> step p o = (p', r) ->
    (forall e t, o = Recv e t -> fresh t h) -> reach p' ((o, r) :: h).
