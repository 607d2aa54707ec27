(** Model of the client side of a connection: matching replies to calls.
    Source: python/xoscar/backends/core.py, class ActorCallerThreadLocal:
    _listen 89-144, call_with_client 146-170.

    One client connection is modelled; the table [_client_to_message_futures]
    has one independent entry per client (55-58).  Message ids and payloads are
    natural numbers.  A [Fut] is an [asyncio.Future]; futures are numbered in
    the order the calls are made. *)
From Coq Require Import List Arith Bool Lia.
From Verif Require Import Base.
Import ListNotations.

(** Exceptions a future can be completed with. *)
Inductive exc :=
| ExServerClosed          (** 104-106, 136 *)
| ExDeserialize           (** 115: the cause of a DeserializeMessageFailed *)
| ExOther.                (** 120: any other exception of the receive loop *)

Inductive fstate :=
| Pending
| Result (message_id payload : nat)
| Failed (e : exc)
| Cancelled.

Record fut := Fut { f_id : nat (** the id of the request it waits for *); f_state : fstate }.

Definition done (f : fut) : bool :=
  match f_state f with Pending => false | _ => true end.

Record caller := Caller {
  futures : list fut;           (** every future ever created by [call_with_client] *)
  table : dict nat;             (** [_client_to_message_futures\[client\]]: id -> future number *)
  listening : bool;             (** the [_listen] task is still running *)
  closed : bool                 (** [client.closed] *)
}.

Definition init : caller := Caller [] [] true false.

Definition set_state (fs : list fut) (n : nat) (s : fstate) : list fut :=
  match nth_error fs n with
  | Some f => lset fs n (Fut (f_id f) s)
  | None => fs
  end.

(** [future.set_exception(e)]: raises InvalidStateError when the future is done. *)
Definition set_exception (fs : list fut) (n : nat) (e : exc) : option (list fut) :=
  match nth_error fs n with
  | Some f => if done f then None else Some (set_state fs n (Failed e))
  | None => Some fs
  end.

(** 117-120 and 134-138: [for future in message_futures.values(): future.set_exception(...)];
    the flag tells whether the loop ran to its end (no InvalidStateError). *)
Fixpoint fail_all (fs : list fut) (t : dict nat) (e : exc) : list fut * bool :=
  match t with
  | [] => (fs, true)
  | (_, n) :: t' =>
      match set_exception fs n e with
      | None => (fs, false)
      | Some fs' => fail_all fs' t' e
      end
  end.

(** The [except Exception] branch 116-120: the table is emptied first; an
    InvalidStateError raised here leaves the loop, and the [finally] branch
    139-144 closes the client. *)
Definition on_exception (c : caller) (e : exc) : caller :=
  let (fs, ok) := fail_all (futures c) (table c) e in
  Caller fs [] (listening c && ok) (closed c || negb ok).

(** What can happen on one connection. *)
Inductive event :=
| ECall (m : nat)            (** call_with_client registers a future, 149-151.  A closed client
                                 gets no new call: Router.get_client (router.py 131-176) returns
                                 only clients that are not closed, and there is no suspension
                                 between its return and the registration (202-222, 149-151). *)
| ESendFailed                (** client.send raised ConnectionError, 156-162: close the client *)
| ECancel (n : nat)          (** the task awaiting future [n] is cancelled *)
| EReply (m p : nat)         (** the listener receives a message, 107-111 *)
| EDeserFailed (m : nat)     (** recv raised DeserializeMessageFailed, 112-115 *)
| ELost                      (** recv raised EOFError/ConnectionError, 95-106 then 116-120 *)
| ERecvError                 (** recv raised another exception, 116-120 *)
| EClose                     (** client.close() by somebody else (224-226, router) *)
| ELoopEnd.                  (** the while loop sees client.closed, 91 and 134-144 *)

Definition step (c : caller) (ev : event) : caller :=
  match ev with
  | ECall m =>
      if closed c then c else
      let n := length (futures c) in
      Caller (futures c ++ [Fut m Pending]) (dset (table c) m n) (listening c) (closed c)
  | ESendFailed => Caller (futures c) (table c) (listening c) true
  | EClose => Caller (futures c) (table c) (listening c) true
  | ECancel n =>
      match nth_error (futures c) n with
      | Some f => if done f then c
                  else Caller (set_state (futures c) n Cancelled) (table c) (listening c) (closed c)
      | None => c
      end
  | EReply m p =>
      if listening c then
        match dget (table c) m with
        | Some n =>
            let t := ddel (table c) m in
            match nth_error (futures c) n with
            | Some f => if done f then Caller (futures c) t true (closed c)
                        else Caller (set_state (futures c) n (Result m p)) t true (closed c)
            | None => Caller (futures c) t true (closed c)
            end
        | None => on_exception c ExOther          (** KeyError of [pop] *)
        end
      else c
  | EDeserFailed m =>
      if listening c then
        match dget (table c) m with
        | Some n =>
            match set_exception (futures c) n ExDeserialize with
            | Some fs => Caller fs (ddel (table c) m) true (closed c)
            | None => Caller (futures c) (ddel (table c) m) false true
            end
        | None => Caller (futures c) (table c) false true
            (** KeyError inside an except branch: leaves the loop *)
        end
      else c
  | ELost =>
      if listening c
      then let c' := on_exception c ExServerClosed in
           Caller (futures c') (table c') (listening c') true
      else c
  | ERecvError => if listening c then on_exception c ExOther else c
  | ELoopEnd =>
      if listening c && closed c then
        let (fs, _) := fail_all (futures c) (table c) ExServerClosed in
        Caller fs [] false true
      else c
  end.

Definition run (c : caller) (evs : list event) : caller := fold_left step evs c.

(** Not code: the side condition of the partial C08 theorem. *)
(** Traces without cancellation in which deserialization errors concern
    outstanding requests. *)
Fixpoint calm (c : caller) (evs : list event) : Prop :=
  match evs with
  | [] => True
  | ev :: evs' =>
      match ev with
      | ECancel _ => False
      | EDeserFailed m => dget (table c) m <> None
      | _ => True
      end /\ calm (step c ev) evs'
  end.
