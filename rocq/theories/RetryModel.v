(** * RetryModel: wrapping a callable with retries

    Models [retry_callable] (/repo/python/xoscar/utils.py 414-449): the
    asynchronous wrapper (lines 421-431) and the synchronous one (433-446).

    The wrapped callable is an arbitrary sequence of outcomes, one per
    invocation: it returns a value, raises an instance of [ex_type], or raises
    something else.  The wrapper is the small-step machine of its [while] loop,
    because with [max_retries < 0] it may not terminate.  Every invocation and
    every sleep is recorded.  Cancellation while sleeping is not modelled. *)
From Coq Require Import List ZArith Bool.
Import ListNotations.
Open Scope Z_scope.

Section Retry.
Context {V E : Type}.

Inductive outcome :=
| Return (v : V)      (* the callable returned *)
| Listed (e : E)      (* it raised an instance of ex_type *)
| Other (e : E).      (* it raised anything else *)

(** How a call of the wrapper ends. *)
Inductive result :=
| RValue (v : V)
| RNone               (* falls off the end of the function: Python's None *)
| RRaise (e : E)
| RAssertionError.    (* assert ex is not None, line 443 *)

Inductive event := Call | Sleep.

Record state := mkSt { num_retried : Z; ex : option E; log : list event (* newest first *) }.

(** utils.py 424 and 437-438 *)
Definition start : state := mkSt 0 None [].

(** The loop test of lines 425 and 439. *)
Definition again (max_retries : Z) (s : state) : bool :=
  (max_retries <? 0) || (num_retried s <? max_retries).

(** One turn of the loop of the asynchronous wrapper, lines 425-430;
    leaving the loop returns None. *)
Definition step_async (max_retries : Z) (call : Z -> outcome) (s : state) : state * option result :=
  if again max_retries s then
    let n := num_retried s + 1 in
    match call (num_retried s) with
    | Return v => (mkSt n (ex s) (Call :: log s), Some (RValue v))
    | Listed e => (mkSt n (ex s) (Sleep :: Call :: log s), None)
    | Other e => (mkSt n (ex s) (Call :: log s), Some (RRaise e))
    end
  else (s, Some RNone).

(** One turn of the loop of the synchronous wrapper, lines 439-445. *)
Definition step_sync (max_retries : Z) (call : Z -> outcome) (s : state) : state * option result :=
  if again max_retries s then
    let n := num_retried s + 1 in
    match call (num_retried s) with
    | Return v => (mkSt n (ex s) (Call :: log s), Some (RValue v))
    | Listed e => (mkSt n (Some e) (Sleep :: Call :: log s), None)
    | Other e => (mkSt n (ex s) (Call :: log s), Some (RRaise e))
    end
  else (s, Some (match ex s with None => RAssertionError | Some e => RRaise e end)).

(** The first [n] turns of a wrapper. *)
Fixpoint turns (step : state -> state * option result) (n : nat) (s : state) : state * option result :=
  match n with
  | O => (s, None)
  | S n => match step s with
           | (s', None) => turns step n s'
           | r => r
           end
  end.

(** [ends step l r]: the call of the wrapper ends with [r] after the invocations and sleeps [l]. *)
Definition ends (step : state -> state * option result) (l : list event) (r : result) : Prop :=
  exists n s, turns step n start = (s, Some r) /\ log s = rev l.

(** [diverges step]: it never ends. *)
Definition diverges (step : state -> state * option result) : Prop :=
  forall n, snd (turns step n start) = None.
End Retry.
Arguments outcome : clear implicits.
Arguments result : clear implicits.
Arguments state : clear implicits.
