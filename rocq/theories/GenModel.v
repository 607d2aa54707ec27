(** Remote generators.  Source: /repo/python/xoscar/api.py (line numbers below).

    The state has the generators stored in the actor (_generators, 395) and the
    IteratorWrapper objects that exist in client processes.  A generator is the
    list of the items it will yield and how it ends.

    Simplified / not modelled: the steps of a call are one event: the methods of an
    Actor run under its lock (LockModel), so that two __xoscar_next__ of one actor
    do not overlap (for a StatelessActor they can); lost connections; an actor that
    is destroyed; values that are tuples with coroutines (C12).  The wrapper object
    that the server makes is serialized to the client at once and is only visible
    there; uids (uuid1) are numbers, never used twice. *)
From Coq Require Import List Arith Bool String.
From Verif Require Import Dict.
Import ListNotations.
Open Scope list_scope.

Inductive ending := Return | Raises (msg : string).
Definition gen := (list nat * ending)%type.

Record st := {
  gens : list (nat * gen);             (** _generators of the actor, by uid *)
  wraps : list (nat * (nat * bool));   (** live wrappers: uid, _gc_destroy *)
  next_uid : nat; next_w : nat
}.
Definition init : st := {| gens := []; wraps := []; next_uid := 0; next_w := 0 |}.

Inductive ev :=
| ECreate (g : gen)        (** a @generator method is called *)
| ENext (w : nat)          (** __anext__ *)
| EDestroy (w : nat)       (** destroy() *)
| EDrop (w : nat)          (** garbage collection *)
| ETransfer (w : nat)      (** the wrapper is pickled and arrives somewhere *)
| ETransferLost (w : nat). (** it is pickled but does not arrive *)
Inductive out :=
| RWrapper (w u : nat) | RItem (v : nat) | RStop | RError (msg : string) | RNoIterator | RNone.

(** [sub in s] *)
Fixpoint contains (sub s : string) : bool :=
  prefix sub s || match s with EmptyString => false | String _ s' => contains sub s' end.

(** 432-484, with what the call gives on the client: str(e) of an error that
    comes from another pool is "[address=..., pid=...] " and its message
    (backends/message.pyx 207-209); [shown] is that. *)
Definition shown (msg : string) : string := String.append "[address=127.0.0.1:1, pid=1] " msg.
Inductive answer := AItem (v : nat) | AExc (msg : string) | ANoIterator.
Definition server_next (s : st) (u : nat) : st * answer :=
  let destroyed := {| gens := gdel Nat.eqb (gens s) u; wraps := wraps s; next_uid := next_uid s; next_w := next_w s |} in
  match gget Nat.eqb (gens s) u with
  | None => (s, ANoIterator)                               (* 484 *)
  | Some (v :: vs, e) =>
      ({| gens := gset Nat.eqb (gens s) u (vs, e); wraps := wraps s; next_uid := next_uid s; next_w := next_w s |}, AItem v)
  | Some ([], Raises m) => (destroyed, AExc m)             (* 470-476 *)
  | Some ([], Return) => (destroyed, AExc "StopIteration") (* 477-480 *)
  end.
(** 366-379 *)
Definition anext (s : st) (u : nat) : st * out :=
  match server_next s u with
  | (s', AItem v) => (s', RItem v)
  | (s', AExc m) => (s', if contains "StopIteration" (shown m) then RStop else RError m)
  | (s', ANoIterator) => (s', RNoIterator)   (* "No iterator with id: ..." *)
  end.

(** 486-496 *)
Definition destroy (s : st) (u : nat) : st :=
  {| gens := gdel Nat.eqb (gens s) u; wraps := wraps s; next_uid := next_uid s; next_w := next_w s |}.
Definition set_wraps (s : st) (ws : list (nat * (nat * bool))) : st :=
  {| gens := gens s; wraps := ws; next_uid := next_uid s; next_w := next_w s |}.

Definition step (s : st) (e : ev) : st * out :=
  match e with
  | ECreate g =>
      (* 499-515, 330-336 *)
      ({| gens := gset Nat.eqb (gens s) (next_uid s) g;
          wraps := gset Nat.eqb (wraps s) (next_w s) (next_uid s, true);
          next_uid := S (next_uid s); next_w := S (next_w s) |}, RWrapper (next_w s) (next_uid s))
  | ENext w => match gget Nat.eqb (wraps s) w with Some (u, _) => anext s u | None => (s, RNone) end
  | EDestroy w =>
      (* 338-344 *)
      match gget Nat.eqb (wraps s) w with Some (u, _) => (destroy s u, RNone) | None => (s, RNone) end
  | EDrop w =>
      (* 346-355 *)
      match gget Nat.eqb (wraps s) w with
      | Some (u, gc) =>
          let s' := set_wraps s (gdel Nat.eqb (wraps s) w) in ((if gc then destroy s' u else s'), RNone)
      | None => (s, RNone)
      end
  | ETransfer w =>
      (* 360-365: __getstate__ *)
      match gget Nat.eqb (wraps s) w with
      | Some (u, _) =>
          ({| gens := gens s; wraps := gset Nat.eqb (gset Nat.eqb (wraps s) w (u, false)) (next_w s) (u, true);
              next_uid := next_uid s; next_w := S (next_w s) |}, RWrapper (next_w s) u)
      | None => (s, RNone)
      end
  | ETransferLost w =>
      match gget Nat.eqb (wraps s) w with
      | Some (u, _) => (set_wraps s (gset Nat.eqb (wraps s) w (u, false)), RNone)
      | None => (s, RNone)
      end
  end.

(** What has happened, the newest event first. *)
Inductive reach : st -> list (ev * out) -> Prop :=
| r_init : reach init []
| r_step : forall s h e s' r, reach s h -> step s e = (s', r) -> reach s' ((e, r) :: h).
