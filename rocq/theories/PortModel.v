(** * PortModel: choosing a free port

    Models [get_next_port] (/repo/python/xoscar/utils.py 201-231) together with
    the process-wide set [_local_occupied_ports] (utils.py 168).

    Simplifications.
    - What the operating system reports ([psutil.net_connections] or netstat,
      lines 204-218) is an arbitrary list of ports, new at every call; the range
      test of lines 212 and 191 is part of the model.
    - The random number of lines 221-222 is an arbitrary argument [randn >= 0].
    - A Python set is a duplicate-free list; only its length and membership
      are ever used. *)
From Coq Require Import List ZArith Bool.
Import ListNotations.
Open Scope Z_scope.

(** utils.py 166 *)
Definition LOW_PORT_BOUND : Z := 10000.
(** utils.py 167 *)
Definition HIGH_PORT_BOUND : Z := 65535.

(** Python [x in s]. *)
Definition mem (x : Z) (s : list Z) : bool := existsb (Z.eqb x) s.

(** Python [s.add(x)]. *)
Definition sadd (s : list Z) (x : Z) : list Z := if mem x s then s else x :: s.

(** Python [s.update(xs)]; [set(xs)] is [supdate [] xs]. *)
Definition supdate (s xs : list Z) : list Z := fold_left sadd xs s.

(** utils.py 209-213 (or 174-193): the set of ports reported busy, restricted to the range. *)
Definition reported (conns : list Z) : list Z :=
  supdate [] (filter (fun p => (LOW_PORT_BOUND <=? p) && (p <=? HIGH_PORT_BOUND)) conns).

(** Python [range(lo, hi)]. *)
Fixpoint zcount (lo : Z) (n : nat) : list Z :=
  match n with O => [] | S n => lo :: zcount (lo + 1) n end.
Definition zrange (lo hi : Z) : list Z := zcount lo (Z.to_nat (hi - lo)).

Inductive outcome := Port (p : Z) | ZeroDivisionError | SystemError.

(** utils.py 225-232: the [for] loop; [ports] is what is left of the range. *)
Fixpoint scan (occupied : list Z) (idx : Z) (ports : list Z) : outcome :=
  match ports with
  | [] => SystemError
  | i :: ports =>
      if mem i occupied then scan occupied idx ports
      else if idx =? 0 then Port i
      else scan occupied (idx - 1) ports
  end.

(** utils.py 201-232.  [local] is [_local_occupied_ports]; the result contains its new value. *)
Definition get_next_port (conns : list Z) (randn : Z) (occupy : bool) (local : list Z)
  : outcome * list Z :=
  let occupied := supdate (reported conns) local in
  let d := 1 + HIGH_PORT_BOUND - LOW_PORT_BOUND - Z.of_nat (length occupied) in
  if d =? 0 then (ZeroDivisionError, local)
  else
    let idx := randn mod d in
    match scan occupied idx (zrange LOW_PORT_BOUND (HIGH_PORT_BOUND + 1)) with
    | Port i => (Port i, if occupy then sadd local i else local)
    | o => (o, local)
    end.

(** One call as seen from outside: what the system reported, the draw, the flag and the outcome. *)
Record call := mkCall { c_conns : list Z; c_rand : Z; c_occ : bool; c_out : outcome }.

(** All histories of calls of one process (newest first), with the module's state. *)
Inductive reach : list Z -> list call -> Prop :=
| r0 : reach [] []
| r1 : forall local h conns r occ out local',
    reach local h -> 0 <= r ->
    get_next_port conns r occ local = (out, local') ->
    reach local' (mkCall conns r occ out :: h).
