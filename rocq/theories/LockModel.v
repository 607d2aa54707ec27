(** Model of the lock around an actor's methods.
    Source: python/xoscar/core.pyx: _BaseActor.__on_receive__ 507-564 (calls
    through messages), __pyx_actor_method_wrapper 284-296 (calls through local
    references), _run_actor_async_generator 458-493 (one acquisition per step of
    a generator), _Actor._create_lock 570-572.  All of them run the user's code
    inside [async with self._lock] unless the method is marked [no_lock].

    [_lock] is an [asyncio.Lock].  Its implementation (CPython, Lib/asyncio/locks.py,
    class Lock: acquire, release, _wake_up_first; the same in 3.8 - 3.13) is
    modelled because the order of calls depends on it:

      acquire:  if not locked and all waiters are cancelled: locked = True, return
                append a future to the waiters; await it; remove it from the waiters
                if the await raised CancelledError: if not locked: wake_up_first(); raise
                else locked = True
      release:  locked = False; wake_up_first()
      wake_up_first: if there is a first waiter and its future is not done: set its result

    A task is one lock acquisition, numbered; tasks run one at a time (asyncio),
    and can be interleaved only where they are suspended.  A stateless actor has
    a _FakeLock (575-588) and no claim is made about it. *)
From Coq Require Import List Arith Bool.
Import ListNotations.

(** State of the future of a waiter. *)
Inductive wst :=
| Wp     (** pending *)
| Ww     (** result set: the task is scheduled and will get the lock *)
| Wwc    (** result set, then the task was cancelled before it ran *)
| Wc.    (** cancelled: the task is scheduled with CancelledError *)

Record lock := Lock {
  locked : bool;
  waiters : list (nat * wst);
  inside : list nat;      (** tasks in the body of [async with self._lock] *)
  free : list nat;        (** tasks running a [no_lock] method *)
  arrivals : list nat;    (** history: tasks that asked for the lock, in order *)
  starts : list nat;      (** history: tasks whose body started, in order *)
  gone : list nat         (** history: tasks cancelled while waiting *)
}.

Definition init : lock := Lock false [] [] [] [] [] [].

Definition wake_up_first (w : list (nat * wst)) : list (nat * wst) :=
  match w with
  | (t, Wp) :: r => (t, Ww) :: r
  | _ => w
  end.

Definition is_cancelled (s : wst) : bool := match s with Wc => true | _ => false end.

Definition remove_waiter (w : list (nat * wst)) (t : nat) : list (nat * wst) :=
  filter (fun p => negb (fst p =? t)) w.

Definition lookup (w : list (nat * wst)) (t : nat) : option wst :=
  match find (fun p => fst p =? t) w with Some (_, s) => Some s | None => None end.

Definition set_wst (w : list (nat * wst)) (t : nat) (s : wst) : list (nat * wst) :=
  map (fun p => if fst p =? t then (t, s) else p) w.

Definition mem (t : nat) (l : list nat) : bool := existsb (Nat.eqb t) l.

Inductive event :=
| Arrive (t : nat)        (** a call reaches [async with self._lock] *)
| ArriveFree (t : nat)    (** a call of a [no_lock] method *)
| Resume (t : nat)        (** the loop runs a waiting task whose future is done *)
| Cancel (t : nat)        (** somebody cancels the task *)
| Finish (t : nat)        (** the body ends: returns, raises or is cancelled *)
| FinishFree (t : nat).

Definition step (s : lock) (e : event) : lock :=
  match e with
  | Arrive t =>
      if mem t (arrivals s) then s     (* task numbers are not reused *)
      else if negb (locked s) && forallb (fun p => is_cancelled (snd p)) (waiters s) then
        Lock true (waiters s) (inside s ++ [t]) (free s) (arrivals s ++ [t]) (starts s ++ [t]) (gone s)
      else
        Lock (locked s) (waiters s ++ [(t, Wp)]) (inside s) (free s) (arrivals s ++ [t]) (starts s) (gone s)
  | ArriveFree t =>
      Lock (locked s) (waiters s) (inside s) (free s ++ [t]) (arrivals s) (starts s) (gone s)
  | Resume t =>
      match lookup (waiters s) t with
      | Some Ww =>
          Lock true (remove_waiter (waiters s) t) (inside s ++ [t]) (free s)
               (arrivals s) (starts s ++ [t]) (gone s)
      | Some Wwc | Some Wc =>
          let w := remove_waiter (waiters s) t in
          Lock (locked s) (if locked s then w else wake_up_first w) (inside s) (free s)
               (arrivals s) (starts s) (gone s)
      | Some Wp | None => s
      end
  | Cancel t =>
      match lookup (waiters s) t with
      | Some Wp => Lock (locked s) (set_wst (waiters s) t Wc) (inside s) (free s)
                        (arrivals s) (starts s) (gone s ++ [t])
      | Some Ww => Lock (locked s) (set_wst (waiters s) t Wwc) (inside s) (free s)
                        (arrivals s) (starts s) (gone s ++ [t])
      | _ => s     (* a running body gets the exception itself, see Finish *)
      end
  | Finish t =>
      if mem t (inside s) then
        Lock false (wake_up_first (waiters s)) (filter (fun x => negb (x =? t)) (inside s)) (free s)
             (arrivals s) (starts s) (gone s)
      else s
  | FinishFree t =>
      Lock (locked s) (waiters s) (inside s) (filter (fun x => negb (x =? t)) (free s))
           (arrivals s) (starts s) (gone s)
  end.

Definition run (s : lock) (evs : list event) : lock := fold_left step evs s.
