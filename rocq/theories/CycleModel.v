(** * CycleModel: message traces and the detection of call cycles

    Models [record_message_trace] and [detect_cycle_send] of
    /repo/python/xoscar/debug.py (lines 113-166), with their uses in
    [Context.send] (backends/context.py 229-263), [ActorPool.send] (backends/pool.py
    681-697), [_run_actor_async_generator] (core.pyx 457-495) and the calls through
    local references, which bypass them (core.pyx 275-345).

    An invocation is one run of an actor's method.  The trace is the value of the
    context variable [_message_trace_var] in its task; [None] and the empty list are
    the same to all readers.

    Simplifications.
    - Debug options are on, with [log_cycle_send] (otherwise nothing is detected).
    - A trace item is the actor, i.e. its (uid, address); the method name only
      appears in the text of the warning.
    - Tasks are created with a copy of the creator's context (asyncio's rule); the
      context of a connection's reader task has no trace.
    - No cancellation: an invocation ends only after those it awaits. *)
From Coq Require Import List Bool Arith Lia.
Import ListNotations.

(** How an invocation calls another actor. *)
Inductive kind :=
| Send        (* await ref.method(), other pool *)
| LocalSend   (* the same through a local reference (actor of the same pool; the reference is older than
                 the detection, see CycleRefProps) *)
| YieldSend   (* yield ref.method(), other pool: the lock is released meanwhile *)
| LocalYield  (* the same through a local reference *)
| Tell        (* ref.method.tell(), or a send with wait_response=False *)
| LocalTell   (* the same through a local reference *)
| TaskSend.   (* await ref.method() in a background task that the invocation created *)

Record inv := mkInv { iactor : nat; itrace : list nat; done : bool;
                      iparent : option (nat * kind) }.

Definition mem (a : nat) (l : list nat) : bool := existsb (Nat.eqb a) l.

(** The trace in the context where the call's coroutine starts: core.pyx 478-490 pops
    it around what a generator yields. *)
Definition sender_trace (k : kind) (trace : list nat) : list nat :=
  match k with
  | YieldSend | LocalYield => []
  | _ => trace
  end.

(** debug.py 133-142 (called at context.py 253): the trace put into the message
    ([wait_response] is false for a tell: the message's trace stays [None]), and
    whether the cycle is reported. *)
Definition detect (wait_response : bool) (cur_trace : list nat) (target : nat) : list nat * bool :=
  if wait_response then (cur_trace, mem target cur_trace) else ([], false).

(** debug.py 113-130 (called at pool.py 684) *)
Definition record_trace (message_trace : list nat) (target : nat) : list nat := message_trace ++ [target].

(** The new invocation's trace, and whether a warning is logged. *)
Definition call (k : kind) (trace : list nat) (target : nat) : list nat * bool :=
  let cur := sender_trace k trace in
  match k with
  | Send | YieldSend | TaskSend =>
      let (mt, warn) := detect true cur target in (record_trace mt target, warn)
  | Tell =>
      let (mt, warn) := detect false cur target in (record_trace mt target, warn)
  | LocalSend | LocalYield | LocalTell => (cur, false)   (* core.pyx 318-331 *)
  end.

(** Does the caller wait for the end of the called invocation? *)
Definition awaited (k : kind) : bool :=
  match k with Send | LocalSend | YieldSend | LocalYield => true | _ => false end.

Inductive event :=
| Outside (target : nat)                              (* a client outside of actors sends *)
| Start (p : nat) (k : kind) (target : nat) (warned : bool)  (* invocation p calls target *)
| Finish (i : nat).

(** Invocations are numbered in the order of their start. *)
Definition st := list inv.
Fixpoint set_done (i : nat) (s : st) : st :=
  match s, i with
  | [], _ => []
  | v :: s, O => mkInv (iactor v) (itrace v) true (iparent v) :: s
  | v :: s, S i => v :: set_done i s
  end.

Inductive step : st -> event -> st -> Prop :=
| step_outside s a : step s (Outside a) (s ++ [mkInv a (record_trace [] a) false None])
| step_start s p k a v tr w :
    nth_error s p = Some v -> (done v = false \/ k = TaskSend) ->
    call k (itrace v) a = (tr, w) ->
    step s (Start p k a w) (s ++ [mkInv a tr false (Some (p, k))])
| step_finish s i v :
    nth_error s i = Some v -> done v = false ->
    (forall c, In c s -> done c = false -> forall k, iparent c = Some (i, k) -> awaited k = false) ->
    step s (Finish i) (set_done i s).

(** Histories, newest first *)
Inductive reach : st -> list event -> Prop :=
| reach_start : reach [] []
| reach_step s h e s' : reach s h -> step s e s' -> reach s' (e :: h).
