(** * DelayModel: delayed calls (tell_delay) on the event loop

    Models python/xoscar/core.pyx 204-219 ([ActorRefMethod.tell_delay]: a task that sleeps, then
    sends without waiting for the result) and 349-354 ([LocalActorRefMethod.tell_delay]) with
    330-334 ([LocalActorRefMethod.tell]: a task for the method, then [sleep(0)]), on CPython's
    event loop (Lib/asyncio/base_events.py [_run_once], tasks.py [sleep]): a queue of tasks that are
    ready, and timers, of which one that is due first is moved to the queue.

    Simplifications: times are numbers of clock ticks, a delay below 0 is 0; [res] is the loop's
    clock resolution.  Sending to another pool (context.pyx 326-328; C07 - C09, C62) is the events
    [Hand] (the message is serialized and written), [Return] and [Fail], at any moment after it has
    begun.  What the actor then does is C10 - C13.  A cancelled task ends at once and not at its
    next turn.  [reach a]: looking up the actor of local reference [a] succeeds (C50).  Arguments are one
    object [c_arg] whose content [val] can change. *)
From Coq Require Import List Arith Bool.
Import ListNotations.

Section Delay.
Context {V : Type}.
Variable res : nat.

Inductive exn := ConnectionRefusedError | TypeError | ActorNotExist | OtherError (n : nat).
Inductive kind := Remote (ignore_conn_fail : bool) | Local (a : nat).
Inductive outcome := Returned | Raised (e : exn) | Cancelled.
Inductive phase := Created | Asleep (due : nat) | Woken | Sending | Handed | Ended (o : outcome).
Record task := mkT { c_kind : kind; c_arg : nat; c_delay : option nat; c_phase : phase }.
Record st := mkSt {
  now : nat;
  tasks : nat -> option task;
  ready : list nat;               (** BaseEventLoop._ready *)
  timers : list (nat * nat);      (** BaseEventLoop._scheduled: due time, task *)
  begun : list nat;               (** tasks that have invoked [send] or [tell], in this order *)
  out : list (nat * nat * V);     (** what was handed over: task, time, content of the arguments *)
  reach : nat -> bool;
  val : nat -> V;
  logged : list (nat * exn) }.    (** core.pyx 215-216 *)

Definition upd {X} (m : nat -> X) (k : nat) (x : X) : nat -> X := fun j => if j =? k then x else m j.
Definition put (s : st) i t := mkSt (now s) (upd (tasks s) i (Some t)) (ready s) (timers s) (begun s) (out s) (reach s) (val s) (logged s).
Definition phase_to (t : task) p := mkT (c_kind t) (c_arg t) (c_delay t) p.
Definition set_ready (s : st) q := mkSt (now s) (tasks s) q (timers s) (begun s) (out s) (reach s) (val s) (logged s).
Definition set_timers (s : st) w := mkSt (now s) (tasks s) (ready s) w (begun s) (out s) (reach s) (val s) (logged s).
Definition begin (s : st) i := mkSt (now s) (tasks s) (ready s) (timers s) (begun s ++ [i]) (out s) (reach s) (val s) (logged s).
Definition hand (s : st) i a := mkSt (now s) (tasks s) (ready s) (timers s) (begun s) (out s ++ [(i, now s, val s a)]) (reach s) (val s) (logged s).
Definition log (s : st) i e := mkSt (now s) (tasks s) (ready s) (timers s) (begun s) (out s) (reach s) (val s) (logged s ++ [(i, e)]).

(** core.pyx 211-217: the task ends with the exception, unless it is ignored; a local delayed call
    has no such clause *)
Definition fail (s : st) i t e : st :=
  match c_kind t, e with
  | Remote true, ConnectionRefusedError => put s i (phase_to t (Ended Returned))
  | Remote _, _ => put (log s i e) i (phase_to t (Ended (Raised e)))
  | Local _, _ => put s i (phase_to t (Ended (Raised e)))
  end.
(** A task that is ready gets its turn. *)
Definition turn (s : st) (i : nat) (t : task) : st :=
  match c_phase t with
  | Created =>                                     (* asyncio.sleep(delay) *)
      match c_delay t with
      | None => fail s i t TypeError               (* None <= 0 *)
      | Some 0 => set_ready (put s i (phase_to t Woken)) (ready s ++ [i])
      | Some d => set_timers (put s i (phase_to t (Asleep (now s + d)))) (timers s ++ [(now s + d, i)])
      end
  | Woken =>
      match c_kind t with
      | Remote _ => put (begin s i) i (phase_to t Sending)
      | Local a =>
          if reach s a
          then set_ready (put (hand (begin s i) i (c_arg t)) i (phase_to t Handed)) (ready s ++ [i])
          else fail (begin s i) i t ActorNotExist
      end
  | Handed => put s i (phase_to t (Ended Returned))
  | _ => s
  end.

Inductive event :=
  | Call (i : nat) (k : kind) (a : nat) (d : option nat)   (** tell_delay *)
  | Cancel (i : nat)                                       (** of the task it returned *)
  | Run                                                    (** the first ready task gets its turn *)
  | Fire (i : nat)                                         (** the timer of task i *)
  | Tick (n : nat)
  | Hand (i : nat) | Return (i : nat) | Fail (i : nat) (e : exn)
  | Reach (a : nat) (b : bool)
  | Change (a : nat) (v : V).

Definition remote (t : task) : bool := match c_kind t with Remote _ => true | Local _ => false end.
Definition drop (i : nat) (l : list nat) : list nat := filter (fun j => negb (j =? i)) l.
Definition drop_timer (i : nat) (l : list (nat * nat)) : list (nat * nat) := filter (fun x => negb (snd x =? i)) l.

Definition step (s : st) (x : event) : option st :=
  match x with
  | Call i k a d =>
      match tasks s i with
      | None => Some (set_ready (put s i (mkT k a d Created)) (ready s ++ [i]))
      | Some _ => None
      end
  | Cancel i =>
      match tasks s i with
      | Some t =>
          match c_phase t with
          | Ended _ => None
          | _ => Some (set_timers (set_ready (put s i (phase_to t (Ended Cancelled))) (drop i (ready s))) (drop_timer i (timers s)))
          end
      | None => None
      end
  | Run =>
      match ready s with
      | i :: q => match tasks s i with Some t => Some (turn (set_ready s q) i t) | None => None end
      | [] => None
      end
  | Fire i =>
      match tasks s i with
      | Some t =>
          match c_phase t with
          | Asleep d =>
              if (d <=? now s + res) && forallb (fun x => d <=? fst x) (timers s)
              then Some (set_timers (set_ready (put s i (phase_to t Woken)) (ready s ++ [i])) (drop_timer i (timers s)))
              else None
          | _ => None
          end
      | None => None
      end
  | Tick n => Some (mkSt (now s + n) (tasks s) (ready s) (timers s) (begun s) (out s) (reach s) (val s) (logged s))
  | Hand i =>
      match tasks s i with
      | Some (mkT (Remote g) a d Sending) => Some (put (hand s i a) i (mkT (Remote g) a d Handed))
      | _ => None
      end
  | Return i =>
      match tasks s i with
      | Some (mkT (Remote g) a d Handed) => Some (put s i (mkT (Remote g) a d (Ended Returned)))
      | _ => None
      end
  | Fail i e =>
      match tasks s i with
      | Some t =>
          if remote t then match c_phase t with Sending | Handed => Some (fail s i t e) | _ => None end else None
      | None => None
      end
  | Reach a b => Some (mkSt (now s) (tasks s) (ready s) (timers s) (begun s) (out s) (upd (reach s) a b) (val s) (logged s))
  | Change a v => Some (mkSt (now s) (tasks s) (ready s) (timers s) (begun s) (out s) (reach s) (upd (val s) a v) (logged s))
  end.
Fixpoint run (s : st) (tr : list event) : option st :=
  match tr with
  | [] => Some s
  | x :: r => match step s x with Some s' => run s' r | None => None end
  end.
Definition fresh (v : nat -> V) : st := mkSt 0 (fun _ => None) [] [] [] [] (fun _ => false) v [].
End Delay.

(** CPython's heapq (Lib/heapq.py [heappush], [heappop], [_siftdown], [_siftup]), which orders the
    timers, on entries (due time, task) compared by due time: used to show that entries due at the
    same time leave in another order than they came. *)
Definition get (h : list (nat * nat)) (k : nat) : nat * nat := nth k h (0, 0).
Fixpoint set (h : list (nat * nat)) (k : nat) (x : nat * nat) : list (nat * nat) :=
  match h, k with
  | [], _ => []
  | _ :: r, 0 => x :: r
  | y :: r, S k => y :: set r k x
  end.
Fixpoint siftdown (fuel : nat) (h : list (nat * nat)) (start pos : nat) (x : nat * nat) : list (nat * nat) :=
  match fuel with
  | 0 => set h pos x
  | S f =>
      if start <? pos
      then let parent := (pos - 1) / 2 in
           if fst x <? fst (get h parent) then siftdown f (set h pos (get h parent)) start parent x else set h pos x
      else set h pos x
  end.
Fixpoint siftup (fuel : nat) (h : list (nat * nat)) (pos : nat) (x : nat * nat) : list (nat * nat) :=
  match fuel with
  | 0 => set h pos x
  | S f =>
      let child := 2 * pos + 1 in
      if child <? length h
      then let c := if (child + 1 <? length h) && negb (fst (get h child) <? fst (get h (child + 1))) then child + 1 else child in
           siftup f (set h pos (get h c)) c x
      else siftdown (length h) h 0 pos x
  end.
Definition heappush (h : list (nat * nat)) (x : nat * nat) := let h' := h ++ [x] in siftdown (length h') h' 0 (length h) x.
Definition heappop (h : list (nat * nat)) : option ((nat * nat) * list (nat * nat)) :=
  match rev h with
  | [] => None
  | [x] => Some (x, [])
  | x :: _ => let h' := removelast h in Some (get h' 0, siftup (length h') (set h' 0 x) 0 x)
  end.
