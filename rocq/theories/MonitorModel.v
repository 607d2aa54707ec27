(** Model of the monitor of sub pools and of waiting for a restart.
    Sources: python/xoscar/backends/pool.py (start_monitor 1339-1344,
    attach_sub_process 1381-1382, process_sub_pool_lost 1451-1455,
    monitor_sub_pools 1457-1494, handle_control_command 1250-1259 for
    wait_pool_recovered), python/xoscar/backends/indigen/pool.py
    (append_sub_pool 341-405, remove_sub_pool 407-422, is_sub_pool_alive 492-493,
    recover_sub_pool 495-506), python/xoscar/backends/context.py
    (kill_actor 180-207, wait_actor_pool_recovered 273-300).

    One step is what happens between two awaits of the main pool.  What is
    simplified:
    - a sub pool is an address and a process; a process runs, is dead, or is
      known to be dead ([returncode] set by asyncio; [kill_sub_pool] and so
      [kill_actor] wait for that);
    - the addresses of appended pools were not used before (port 0);
    - which actors are created again is C38; here [Replaying] succeeds or raises;
    - [stop] of the main pool is C55. *)
From Coq Require Import List Arith Bool Lia.
From Verif Require Import Base.
Import ListNotations.

Inductive life := Absent | Running | Dead | Known.

(** Where [monitor_sub_pools] stands.  [Off]: no task was started.
    [Round todo]: inside the [for] of 1461, the entries of the copied dict that
    are still to come.  [Starting a d todo]: in [recover_sub_pool], waiting for
    the new process (indigen/pool.py 499-500); [d] is
    [recover_events_discovered].  [Replaying]: creating its actors (502-506). *)
Inductive monitor :=
| Off
| Sleeping
| Round (todo : dict nat)
| Starting (a : nat) (d : bool) (todo : dict nat)
| Replaying (a : nat) (d : bool) (todo : dict nat).

(** What can be observed.  [Ready a p]: process [p] of the pool at [a] is up.
    [Down], [Recovered]: the callbacks on_process_down (its process is written
    along) and on_process_recover.  [WaitCalled n a known]: the [n]-th call of
    wait_actor_pool_recovered reaches the main pool; [known]: the process of
    [a] is known to be dead and not just being replaced. *)
Inductive event :=
| Ready (a p : nat)
| Died (p : nat)
| Noticed (p : nat)
| Removed (a : nat)
| Down (a p : nat)
| Recovered (a : nat)
| StartFailed (a : nat)
| ReplayFailed (a : nat)
| WaitCalled (n a : nat) (known : bool)
| WaitReturned (n : nat)
| RoundDone.

Record st := mk {
  auto : bool;                  (** [_auto_recover] is "actor" or "process" *)
  mon : monitor;
  handles : dict nat;           (** [sub_processes]: address to process *)
  alive : nat -> life;
  next : nat;                   (** number of processes so far *)
  waits : list nat;             (** keys of [_recover_events] *)
  waiters : list (nat * nat);   (** calls in [event.wait()], with the address *)
  calls : nat;                  (** number of wait calls so far *)
  used : list nat }.            (** addresses used so far *)

Definition set_life (f : nat -> life) (p : nat) (x : life) : nat -> life :=
  fun q => if q =? p then x else f q.

Definition member (a : nat) (l : list nat) : bool := existsb (Nat.eqb a) l.

Definition is_known (x : life) : bool := match x with Known => true | _ => false end.

Definition known_dead (s : st) (a : nat) : bool :=
  match dget (handles s) a with
  | Some p => is_known (alive s p) &&
              negb match mon s with Replaying b _ _ => b =? a | _ => false end
  | None => false
  end.

(** 1474-1476: [event = self._recover_events.pop(address); event.set()] *)
Definition woken (s : st) (a : nat) : list event :=
  map (fun w => WaitReturned (fst w)) (filter (fun w => snd w =? a) (waiters s)).
Definition pop_event (d : bool) (a : nat) (s : st) : st :=
  if d then mk (auto s) (mon s) (handles s) (alive s) (next s)
              (filter (fun b => negb (b =? a)) (waits s))
              (filter (fun w => negb (snd w =? a)) (waiters s)) (calls s) (used s)
  else s.
Definition popped (d : bool) (a : nat) (s : st) : list event := if d then woken s a else [].

Definition set_mon (s : st) (m : monitor) : st :=
  mk (auto s) m (handles s) (alive s) (next s) (waits s) (waiters s) (calls s) (used s).
Definition set_alive (s : st) (f : nat -> life) : st :=
  mk (auto s) (mon s) (handles s) f (next s) (waits s) (waiters s) (calls s) (used s).
(** A new process is up and becomes the process of [a]
    (pool.py 1382, indigen/pool.py 500). *)
Definition attach (s : st) (a : nat) : st :=
  mk (auto s) (mon s) (dset (handles s) a (next s)) (set_life (alive s) (next s) Running)
     (S (next s)) (waits s) (waiters s) (calls s) (a :: used s).
Definition detach (s : st) (a : nat) : st :=
  mk (auto s) (mon s) (ddel (handles s) a) (alive s) (next s) (waits s) (waiters s) (calls s) (used s).
(** 1251-1256 *)
Definition add_wait (s : st) (a : nat) : st :=
  if auto s
  then mk (auto s) (mon s) (handles s) (alive s) (next s)
          (if member a (waits s) then waits s else a :: waits s)
          (waiters s ++ [(calls s, a)]) (S (calls s)) (used s)
  else mk (auto s) (mon s) (handles s) (alive s) (next s) (waits s) (waiters s) (S (calls s)) (used s).

Inductive step : st -> list event -> st -> Prop :=
| s_die : forall s p, alive s p = Running ->
    step s [Died p] (set_alive s (set_life (alive s) p Dead))
| s_notice : forall s p, alive s p = Dead ->
    step s [Noticed p] (set_alive s (set_life (alive s) p Known))
| s_append : forall s a, ~ In a (used s) ->                    (* indigen/pool.py 390-395 *)
    step s [Ready a (next s)] (attach s a)
| s_remove : forall s a p, dget (handles s) a = Some p ->      (* 410-413; the process is stopped later *)
    step s [Removed a] (detach s a)
| s_wait : forall s a,                                         (* 1250-1259 *)
    step s (WaitCalled (calls s) a (known_dead s a)
            :: (if auto s then [] else [WaitReturned (calls s)])) (add_wait s a)
| s_round : forall s, mon s = Sleeping ->                      (* 1461 *)
    step s [] (set_mon s (Round (handles s)))
| s_alive : forall s a p todo, mon s = Round ((a, p) :: todo) -> alive s p <> Known ->  (* 1463-1464, 1474-1476 *)
    step s (popped (member a (waits s)) a s)
           (set_mon (pop_event (member a (waits s)) a s) (Round todo))
| s_down : forall s a p todo, mon s = Round ((a, p) :: todo) -> alive s p = Known ->    (* 1467-1469, no recovery *)
    auto s = false ->
    step s (Down a p :: popped (member a (waits s)) a s)
           (set_mon (pop_event (member a (waits s)) a s) (Round todo))
| s_restart : forall s a p todo, mon s = Round ((a, p) :: todo) -> alive s p = Known -> (* 1467-1471 *)
    auto s = true -> dget (handles s) a <> None ->
    step s [Down a p] (set_mon s (Starting a (member a (waits s)) todo))
| s_restart_gone : forall s a p todo, mon s = Round ((a, p) :: todo) -> alive s p = Known -> (* get_process_index: KeyError *)
    auto s = true -> dget (handles s) a = None ->
    step s [Down a p; StartFailed a] (set_mon s (Round todo))
| s_start_failed : forall s a d todo, mon s = Starting a d todo ->   (* 1485-1488 *)
    step s [StartFailed a] (set_mon s (Round todo))
| s_ready : forall s a d todo, mon s = Starting a d todo ->          (* indigen/pool.py 500 *)
    step s [Ready a (next s)] (set_mon (attach s a) (Replaying a d todo))
| s_replayed : forall s a d todo, mon s = Replaying a d todo ->      (* 1472-1476 *)
    step s (Recovered a :: popped d a s) (set_mon (pop_event d a s) (Round todo))
| s_replay_failed : forall s a d todo, mon s = Replaying a d todo ->
    step s [ReplayFailed a] (set_mon s (Round todo))
| s_done : forall s, mon s = Round [] ->                             (* 1491 *)
    step s [RoundDone] (set_mon s Sleeping).

(** After [create] and [start] (1339-1344): the monitor runs only if there is a
    sub pool already. *)
Definition init (recover : bool) (addrs : list nat) : st :=
  mk recover (match addrs with [] => Off | _ => Sleeping end)
     (combine addrs (seq 0 (length addrs)))
     (fun p => if p <? length addrs then Running else Absent)
     (length addrs) [] [] 0 addrs.

Inductive run (recover : bool) (addrs : list nat) : list event -> st -> Prop :=
| run_init : NoDup addrs -> run recover addrs [] (init recover addrs)
| run_step : forall tr s out s', run recover addrs tr s -> step s out s' -> run recover addrs (tr ++ out) s'.
