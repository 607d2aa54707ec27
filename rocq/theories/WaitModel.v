(** Model of waiting for the reply of a call, with cancellation.
    Source: python/xoscar/backends/context.py: _wait 113-124, cancel 288-293,
    _process_result_message 106-111 (not modelled: it turns the message into a
    value or raises its error).

    One waiting task.  [future] is the future of the call (completed by the
    caller's listener, CallerModel).  Cancelling a task makes the await at which
    it is suspended raise CancelledError when the task next runs. *)
From Coq Require Import List Bool.
Import ListNotations.

Inductive result := RMsg (m : nat) (** a ResultMessage or ErrorMessage *) | RExc (e : nat).

(** How the cancel request was answered (288-293). *)
Inductive answer := ATrue | ACannotCancel | AFailed (e : nat) (** e.g. ServerClosed *).

Inductive final := FMsg (m : nat) | FExc (e : nat) | FCancelled.

Inductive phase :=
| Shielded            (** 115: await asyncio.shield(future) *)
| Cancelling          (** 118: await self.cancel(address, message_id) *)
| Waiting             (** 124: await future *)
| Ended (f : final).

Record waiter := Waiter {
  w_phase : phase;
  w_future : option result;
  w_answer : option answer;
  w_cancel : bool;                 (** task.cancel() was called, not yet delivered *)
  w_sent : list (nat * nat)        (** cancel requests sent: address, message id (history) *)
}.

Definition init : waiter := Waiter Shielded None None false [].

Definition final_of (r : result) : final := match r with RMsg m => FMsg m | RExc e => FExc e end.

Inductive event :=
| FutureDone (r : result)     (** the reply arrived, or the connection failed *)
| Cancel                      (** somebody cancels the waiting task *)
| Answered (a : answer)       (** the cancel request was answered *)
| Run.                        (** the loop runs the waiting task *)

(** Parameters: where the call went, and its message id. *)
Definition step (address mid : nat) (w : waiter) (ev : event) : waiter :=
  match ev with
  | FutureDone r =>
      match w_future w with
      | None => Waiter (w_phase w) (Some r) (w_answer w) (w_cancel w) (w_sent w)
      | Some _ => w
      end
  | Cancel =>
      match w_phase w with
      | Ended _ => w
      | _ => Waiter (w_phase w) (w_future w) (w_answer w) true (w_sent w)
      end
  | Answered a =>
      match w_phase w, w_answer w with
      | Cancelling, None => Waiter Cancelling (w_future w) (Some a) (w_cancel w) (w_sent w)
      | _, _ => w
      end
  | Run =>
      match w_phase w with
      | Shielded =>
          if w_cancel w then
            Waiter Cancelling (w_future w) None false (w_sent w ++ [(address, mid)])
          else match w_future w with
               | Some r => Waiter (Ended (final_of r)) (w_future w) (w_answer w) false (w_sent w)
               | None => w
               end
      | Cancelling =>
          if w_cancel w then Waiter (Ended FCancelled) (w_future w) (w_answer w) false (w_sent w)
          else match w_answer w with
               | None => w
               | Some ACannotCancel => Waiter (Ended FCancelled) (w_future w) (w_answer w) false (w_sent w)
               | Some (AFailed e) => Waiter (Ended (FExc e)) (w_future w) (w_answer w) false (w_sent w)
               | Some ATrue =>
                   match w_future w with
                   | Some r => Waiter (Ended (final_of r)) (w_future w) (w_answer w) false (w_sent w)
                   | None => Waiter Waiting (w_future w) (w_answer w) false (w_sent w)
                   end
               end
      | Waiting =>
          if w_cancel w then Waiter (Ended FCancelled) (w_future w) (w_answer w) false (w_sent w)
          else match w_future w with
               | Some r => Waiter (Ended (final_of r)) (w_future w) (w_answer w) false (w_sent w)
               | None => w
               end
      | Ended _ => w
      end
  end.

Definition run (address mid : nat) (w : waiter) (evs : list event) : waiter :=
  fold_left (step address mid) evs w.
