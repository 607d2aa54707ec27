(** * WaitForModel: [xoscar.wait_for]

    Models python/xoscar/api.py 185-217.  A call runs as a task; its completion
    copies the outcome into a second future, and [asyncio.wait_for] waits for that
    one.  One step is one callback of the event loop.

    Simplifications: values and exceptions are numbers; an exception may be false
    as a truth value (a class with [__bool__] or [__len__]), which line 200 tests;
    [asyncio.wait_for], when several things have happened before it runs again (the
    outcome, the time-out, a cancellation of the caller), may report any of them:
    releases before and after Python 3.12 differ.  [task.cancel()] does not raise. *)
From Coq Require Import List Bool Arith.
Import ListNotations.

Inductive outcome := Val (v : nat) | Exc (e : nat) | Cancelled.
Inductive ending := Returned (v : nat) | Raised (e : nat) | RaisedCancelled | TimedOut.
Record st := mkF {
  task : option outcome;      (** how the awaited call ended, if it did *)
  asked : bool;               (** [task.cancel()] has been called (line 212) *)
  callback : bool;            (** [on_done] is scheduled *)
  new_fut : option outcome;
  fired : bool;               (** the time is up *)
  stop : bool;                (** the caller of [wait_for] has been cancelled *)
  ended : option ending }.    (** [wait_for] itself *)

(** Lines 191-207: the call may be a future that is done already *)
Definition start (t : option outcome) : st :=
  mkF t false (match t with Some _ => true | None => false end) None false false None.

Definition ending_of (o : outcome) : ending :=
  match o with Val v => Returned v | Exc e => Raised e | Cancelled => RaisedCancelled end.

Inductive label := CallEnds (o : outcome) | OnDone | TimeUp | CallerCancelled | Ends (r : ending).

Section wait_for.
Context (falsy : nat -> bool) (timeout : bool).   (** [timeout is not None] *)

(** Lines 195-203 *)
Definition on_done (nf : option outcome) (t : outcome) : option outcome :=
  match nf with
  | Some _ => nf
  | None => match t with
            | Cancelled => Some Cancelled
            | Exc e => if falsy e then None      (** line 203: [f.result()] raises inside the callback *)
                       else Some (Exc e)
            | Val v => Some (Val v)
            end
  end.

Inductive step (s : st) : label -> st -> Prop :=
| call_ends o : task s = None ->
    step s (CallEnds o) (mkF (Some o) (asked s) true (new_fut s) (fired s) (stop s) (ended s))
| run_on_done t : callback s = true -> task s = Some t ->
    step s OnDone (mkF (task s) (asked s) false (on_done (new_fut s) t) (fired s) (stop s) (ended s))
| time_up : timeout = true -> ended s = None -> fired s = false ->
    step s TimeUp (mkF (task s) (asked s) (callback s) (new_fut s) true (stop s) (ended s))
| caller_cancelled : ended s = None ->
    step s CallerCancelled (mkF (task s) (asked s) (callback s) (new_fut s) (fired s) true (ended s))
(** line 208: the outcome *)
| ends_outcome o : ended s = None -> new_fut s = Some o ->
    step s (Ends (ending_of o)) (mkF (task s) (asked s) (callback s) (new_fut s) (fired s) (stop s) (Some (ending_of o)))
(** lines 209-215: the time-out; the future that is awaited is cancelled *)
| ends_timeout : ended s = None -> fired s = true ->
    step s (Ends TimedOut) (mkF (task s) (match task s with None => true | Some _ => asked s end) (callback s)
      (match new_fut s with None => Some Cancelled | x => x end) (fired s) (stop s) (Some TimedOut))
(** a cancellation passes lines 209-215 *)
| ends_cancelled : ended s = None -> stop s = true ->
    step s (Ends RaisedCancelled) (mkF (task s) (asked s) (callback s)
      (match new_fut s with None => Some Cancelled | x => x end) (fired s) (stop s) (Some RaisedCancelled)).

Inductive run (t : option outcome) : list label -> st -> Prop :=
| run_start : run t [] (start t)
| run_step h s l s' : run t h s -> step s l s' -> run t (h ++ [l]) s'.
End wait_for.
