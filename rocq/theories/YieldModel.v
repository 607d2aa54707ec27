(** * Methods that call other actors: with the lock (await) and without (yield); cancellation

    Source: python/xoscar/core.pyx 458-493 (_run_actor_async_generator), 507-564 (__on_receive__), 392-456
    (_handle_actor_result), 284-296 (calls through local references); python/xoscar/backends/context.py 109-121 (_wait), 254-261
    (send), 265-270 (cancel); python/xoscar/backends/pool.py 718-732 (cancel).

    Any number of actors, each with its lock and its state; any number of calls.  A method is a coroutine function
    ([Plain]) or an async generator function ([Gen]).  The code of a method is cut at the places where it waits for other
    actors: a segment reads and changes the state of its actor, and then the method ends or waits:
    - [await ref.f()]: waits with the lock held;
    - [yield ref.f()] or [yield ref1.f(), ref2.g()] (generators): waits without the lock, and goes on when it gets
      it again;
    - [return ref.f()] or [return ref1.f(), ref2.g()] (coroutine functions): the lock is released, the caller gets the
      results.
    A segment may wait for other things (sleep, ...), which end by themselves: [Run] happens at any time after the lock was
    acquired.  If CancelledError is raised inside it, it does something else ([update'], [next']).

    Cancellation: somebody outside, or the cancelled caller, asks a call to cancel ([asked]); the request arrives
    ([Deliver], then [got]).  A call that waits passes it on and goes on waiting, until its calls have ended.  A call is cancelled once,
    or twice during the same wait ([Again]).

    Simplifications: no connection is lost (C65).  Waiting tasks get the lock in the order in which they asked
    (C11); a task that finds the lock free and nobody waiting gets it, here in the next step ([Grant]).  A task
    that is cancelled after the lock was assigned to it but before it runs passes the lock on (C11), which
    here is the same as being cancelled while it waits.  Tuples of which only some items are awaitables are left out
    (C12), as are no_lock methods (C10; for a generator the mark has no effect, 471). A generator does not [Return] an
    awaitable (it would not be awaited, 491). *)
From Coq Require Import List Arith Bool.
Import ListNotations.

Section Yield.
  (** Arguments with the name of the method; values; exceptions; states of actors *)
  Variables M V E St : Type.
  Variable none : V.
  Variable cancelled : E.   (** asyncio.CancelledError *)

  Inductive outcome := Ok (v : V) | Err (e : E).
  Definition call := (nat * M)%type.

  Inductive prog := Seg (update : St -> St) (next : St -> act) (update' : St -> St) (next' : St -> act)
  with act :=
  | Return (v : V)         (** return v; in a generator: raise Return(v) *)
  | Stop                   (** the end of a generator *)
  | Raise (e : E)
  | Yield (cs : list call) (k : list V + E -> prog)
  | Await (c : call) (k : outcome -> prog)
  | Delegate (cs : list call) (f : list V -> V).   (** [f]: the tuple, or the value itself *)
  Inductive method := Plain (p : prog) | Gen (p : prog).
  Variable methods : nat -> M -> method.
  Variable init : nat -> St.

  Definition body (c : call) : prog := match methods (fst c) (snd c) with Plain p | Gen p => p end.

  (** What a task does when it has got the lock *)
  Inductive todo :=
  | Make            (** 526-532: only makes the generator *)
  | Go (p : prog).  (** 526-532 of a coroutine function; 475, 477 of a generator *)
  Definition start (c : call) : todo := match methods (fst c) (snd c) with Plain p => Go p | Gen _ => Make end.

  (** [b]: it was cancelled during this wait *)
  Inductive tstate :=
  | Sent                                                    (** the request has not arrived *)
  | Queued (d : todo)                                       (** waits for the lock *)
  | Inside (d : todo)                                       (** has the lock *)
  | Awaiting (child : nat) (k : outcome -> prog) (b : bool) (** has the lock *)
  | Yielded (children : list nat) (k : list V + E -> prog) (b : bool)      (** 482 *)
  | Delegated (children : list nat) (f : list V -> V) (b : bool)           (** 556 *)
  | Done (o : outcome).

  (** History: a segment ran, or was cancelled, in this state of the actor; the calls (tasks) it waited for gave this result
      ([b]: the wait was cancelled) *)
  Inductive entry :=
  | Ran (s : St) | Stopped (s : St)
  | Got (children : list nat) (r : list V + E) (b : bool) | GotOne (child : nat) (o : outcome) (b : bool).

  Record task := mkTask { t_call : call; t_state : tstate; t_log : list entry }.
  (** History: task, actor, state before and after, lock kept *)
  Record ran := mkRan { r_task : nat; r_actor : nat; r_before : St; r_after : St; r_kept : bool }.
  (** [left]: its caller does not wait for it any more; [replied]: its result has reached the task that waits for it; [parent]: who made
      the call (history) *)
  Record marks := mkMarks { asked : nat -> bool; got : nat -> bool; left : nat -> bool; replied : nat -> bool; parent : nat -> option nat }.

  Record st := mkSt {
    tasks : list task;
    holder : nat -> option nat;
    queue : nat -> list nat;
    mem : nat -> St;
    hist : list ran;
    marked : marks }.
  Definition no_marks : marks := mkMarks (fun _ => false) (fun _ => false) (fun _ => false) (fun _ => false) (fun _ => None).
  Definition initial : st := mkSt [] (fun _ => None) (fun _ => []) init [] no_marks.

  Definition upd {X} (f : nat -> X) (a : nat) (x : X) : nat -> X := fun b => if b =? a then x else f b.
  Definition set_all {X} (f : nat -> X) (is : list nat) (x : X) : nat -> X := fun b => if existsb (Nat.eqb b) is then x else f b.
  Fixpoint put (l : list task) (i : nat) (t : task) : list task :=
    match l, i with
    | [], _ => []
    | _ :: l', 0 => t :: l'
    | x :: l', S i' => x :: put l' i' t
    end.
  Definition new (cs : list call) : list task := map (fun c => mkTask c Sent []) cs.
  Definition with_parent (m : marks) (t : nat) (is : list nat) : marks := mkMarks (asked m) (got m) (left m) (replied m) (set_all (parent m) is (Some t)).
  Definition with_got (m : marks) (t : nat) (is : list nat) : marks :=
    mkMarks (set_all (asked m) is true) (upd (got m) t true) (left m) (replied m) (parent m).
  Definition ended (l : list task) (i : nat) : bool :=
    match nth_error l i with Some (mkTask _ (Done _) _) => true | _ => false end.

  (** What a call gives to its caller, once it is there.  context.py 109-121: if the caller was cancelled while it waited ([b]),
      and the call could not be cancelled because it had ended (CannotCancelTask), CancelledError; but if there are several calls, each
      is awaited in a task of its own (core.pyx 435), which may have ended before ([replied]). *)
  Definition result_of (s : st) (b : bool) (i : nat) : option outcome :=
    if left (marked s) i then Some (Err cancelled)
    else match nth_error (tasks s) i with
         | Some (mkTask _ (Done o) _) => Some (if b && negb (got (marked s) i) && negb (replied (marked s) i) then Err cancelled else o)
         | _ => None
         end.
  Fixpoint results (s : st) (b : bool) (is : list nat) : option (list outcome) :=
    match is with
    | [] => Some []
    | i :: is' => match result_of s b i, results s b is' with Some o, Some os => Some (o :: os) | _, _ => None end
    end.
  (** core.pyx 444-447: the values, or the first exception in the order of the tuple *)
  Fixpoint gather (os : list outcome) : list V + E :=
    match os with
    | [] => inl []
    | Err e :: _ => inr e
    | Ok v :: os' => match gather os' with inl vs => inl (v :: vs) | inr e => inr e end
    end.
  (** 424-452: one awaitable is awaited; with several, CancelledError is raised if there was no other exception (450-452) *)
  Definition conclude (b : bool) (os : list outcome) : list V + E :=
    match gather os with
    | inl vs => if b && (2 <=? length os) then inr cancelled else inl vs
    | inr e => inr e
    end.

  Inductive event :=
  | Call (c : call)     (** somebody outside calls *)
  | Arrive (t : nat)    (** 507: the request reaches the lock *)
  | Grant (a : nat)     (** the lock of the actor is given to the next one *)
  | Run (t : nat)
  | Resume (t : nat)    (** what the task waits for is there *)
  | Cancel (t : nat)    (** somebody outside asks a call made from outside to cancel *)
  | Deliver (t : nat)   (** the request to cancel reaches the task *)
  | LeaveSending (t : nat)   (** the caller is cancelled while it awaits the sending of the request (context.py 254) *)
  | Replied (t : nat)   (** the result of one of several calls has reached the task that waits for it *)
  | Again (t : nat).    (** the task is cancelled a second time while it waits (a local caller, or code of the user) *)

  (** A segment: it runs to its end ([u], [f] of the first kind) or is cancelled *)
  Definition segment (s : st) (t a : nat) (m : M) (l : list entry) (u : St -> St) (f : St -> act) (stopped : bool) : option st :=
    let x := mem s a in
    let n := length (tasks s) in
    let mk0 := if stopped then with_got (marked s) t [] else marked s in
    let go (ts : tstate) (kept : bool) (cs : list call) :=
      Some (mkSt (put (tasks s) t (mkTask (a, m) ts (l ++ [if stopped then Stopped x else Ran x])) ++ new cs)
                 (if kept then holder s else upd (holder s) a None) (queue s) (upd (mem s) a (u x))
                 (hist s ++ [mkRan t a x (u x) kept]) (with_parent mk0 t (seq n (length cs)))) in
    match f x with
    | Return v => go (Done (Ok v)) false []                       (* 530-532; 490-491 *)
    | Stop => go (Done (Ok none)) false []                        (* 492-493 *)
    | Raise e => go (Done (Err e)) false []
    | Yield cs k => go (Yielded (seq n (length cs)) k false) false cs   (* 475-482 *)
    | Await c k => go (Awaiting n k false) true [c]
    | Delegate cs g => go (Delegated (seq n (length cs)) g false) false cs   (* 556 *)
    end.

  Definition step (s : st) (e : event) : option st :=
    match e with
    | Call c => Some (mkSt (tasks s ++ new [c]) (holder s) (queue s) (mem s) (hist s) (marked s))
    | Arrive t =>
        match nth_error (tasks s) t with
        | Some (mkTask c Sent l) =>
            Some (mkSt (put (tasks s) t (mkTask c (Queued (start c)) l)) (holder s)
                       (upd (queue s) (fst c) (queue s (fst c) ++ [t])) (mem s) (hist s) (marked s))
        | _ => None
        end
    | Grant a =>
        match holder s a, queue s a with
        | None, t :: q =>
            match nth_error (tasks s) t with
            | Some (mkTask c (Queued d) l) =>
                Some (mkSt (put (tasks s) t (mkTask c (Inside d) l)) (upd (holder s) a (Some t)) (upd (queue s) a q) (mem s) (hist s) (marked s))
            | _ => None
            end
        | _, _ => None
        end
    | Run t =>
        match nth_error (tasks s) t with
        | Some (mkTask (a, m) (Inside Make) l) =>
            (* 526-532, then 556, 403-415, 471 *)
            Some (mkSt (put (tasks s) t (mkTask (a, m) (Queued (Go (body (a, m)))) l)) (upd (holder s) a None)
                       (upd (queue s) a (queue s a ++ [t])) (mem s) (hist s) (marked s))
        | Some (mkTask (a, m) (Inside (Go (Seg u f _ _))) l) => segment s t a m l u f false
        | _ => None
        end
    | Resume t =>
        match nth_error (tasks s) t with
        | Some (mkTask c (Awaiting i k b) l) =>
            match results s b [i] with
            | Some [o] =>
                Some (mkSt (put (tasks s) t (mkTask c (Inside (Go (k o))) (l ++ [GotOne i o b]))) (holder s) (queue s) (mem s) (hist s) (marked s))
            | _ => None
            end
        | Some (mkTask c (Yielded is k b) l) =>
            (* 482-486, then 471, and 475 or 477 *)
            match results s b is with
            | Some os =>
                Some (mkSt (put (tasks s) t (mkTask c (Queued (Go (k (conclude b os)))) (l ++ [Got is (conclude b os) b]))) (holder s)
                           (upd (queue s) (fst c) (queue s (fst c) ++ [t])) (mem s) (hist s) (marked s))
            | None => None
            end
        | Some (mkTask c (Delegated is f b) l) =>
            match results s b is with
            | Some os =>
                Some (mkSt (put (tasks s) t (mkTask c (Done (match conclude b os with inl vs => Ok (f vs) | inr e => Err e end)) (l ++ [Got is (conclude b os) b])))
                           (holder s) (queue s) (mem s) (hist s) (marked s))
            | None => None
            end
        | _ => None
        end
    | Cancel t =>
        match nth_error (tasks s) t, parent (marked s) t with
        | Some _, None => Some (mkSt (tasks s) (holder s) (queue s) (mem s) (hist s)
                                  (mkMarks (upd (asked (marked s)) t true) (got (marked s)) (left (marked s)) (replied (marked s)) (parent (marked s))))
        | _, _ => None
        end
    | Deliver t =>
        if asked (marked s) t && negb (got (marked s) t) then
          match nth_error (tasks s) t with
          | Some (mkTask c Sent l) =>
              (* the request was not sent yet *)
              Some (mkSt (put (tasks s) t (mkTask c (Done (Err cancelled)) l)) (holder s) (queue s) (mem s) (hist s) (with_got (marked s) t []))
          | Some (mkTask c (Queued d) l) =>
              (* 471 or 526 raise: the user's code does not see it *)
              Some (mkSt (put (tasks s) t (mkTask c (Done (Err cancelled)) l)) (holder s)
                         (upd (queue s) (fst c) (remove Nat.eq_dec t (queue s (fst c)))) (mem s) (hist s) (with_got (marked s) t []))
          | Some (mkTask (a, m) (Inside (Go (Seg _ _ u' f'))) l) => segment s t a m l u' f' true
          | Some (mkTask c (Awaiting i k false) l) =>
              (* context.py 112-114 *)
              Some (mkSt (put (tasks s) t (mkTask c (Awaiting i k true) l)) (holder s) (queue s) (mem s) (hist s) (with_got (marked s) t [i]))
          | Some (mkTask c (Yielded (i :: is) k false) l) =>
              (* 112-114, or core.pyx 437-442 and then 112-114 in each of the tasks *)
              Some (mkSt (put (tasks s) t (mkTask c (Yielded (i :: is) k true) l)) (holder s) (queue s) (mem s) (hist s) (with_got (marked s) t (i :: is)))
          | Some (mkTask c (Delegated (i :: is) f false) l) =>
              Some (mkSt (put (tasks s) t (mkTask c (Delegated (i :: is) f true) l)) (holder s) (queue s) (mem s) (hist s) (with_got (marked s) t (i :: is)))
          | _ => None
          end
        else None
    | LeaveSending t =>
        match nth_error (tasks s) t, parent (marked s) t with
        | Some (mkTask _ Sent _), Some _ =>
            if asked (marked s) t then
              Some (mkSt (tasks s) (holder s) (queue s) (mem s) (hist s)
                         (mkMarks (upd (asked (marked s)) t false) (got (marked s)) (upd (left (marked s)) t true) (replied (marked s)) (parent (marked s))))
            else None
        | _, _ => None
        end
    | Replied t =>
        match nth_error (tasks s) t, parent (marked s) t with
        | Some (mkTask _ (Done _) _), Some p =>
            match nth_error (tasks s) p with
            | Some (mkTask _ (Yielded (i :: j :: is) _ false) _) | Some (mkTask _ (Delegated (i :: j :: is) _ false) _) =>
                if existsb (Nat.eqb t) (i :: j :: is) then
                  Some (mkSt (tasks s) (holder s) (queue s) (mem s) (hist s)
                             (mkMarks (asked (marked s)) (got (marked s)) (left (marked s)) (upd (replied (marked s)) t true) (parent (marked s))))
                else None
            | _ => None
            end
        | _, _ => None
        end
    | Again t =>
        match nth_error (tasks s) t with
        | Some (mkTask _ (Awaiting _ _ true) _) | Some (mkTask _ (Yielded _ _ true) _) | Some (mkTask _ (Delegated _ _ true) _) =>
            let is := match nth_error (tasks s) t with
                      | Some (mkTask _ (Awaiting i _ _) _) => [i]
                      | Some (mkTask _ (Yielded is _ _) _) | Some (mkTask _ (Delegated is _ _) _) => is
                      | _ => []
                      end in
            Some (mkSt (tasks s) (holder s) (queue s) (mem s) (hist s)
                       (mkMarks (asked (marked s)) (got (marked s))
                                (set_all (left (marked s)) (filter (fun i => negb (ended (tasks s) i)) is) true) (replied (marked s)) (parent (marked s))))
        | _ => None
        end
    end.

  Fixpoint run (s : st) (es : list event) : option st :=
    match es with
    | [] => Some s
    | e :: es' => match step s e with Some s' => run s' es' | None => None end
    end.
End Yield.
Arguments Ok {V E}. Arguments Err {V E}.
Arguments Seg {M V E St}. Arguments Return {M V E St}. Arguments Stop {M V E St}. Arguments Raise {M V E St}.
Arguments Yield {M V E St}. Arguments Await {M V E St}. Arguments Delegate {M V E St}.
Arguments Plain {M V E St}. Arguments Gen {M V E St}. Arguments Make {M V E St}. Arguments Go {M V E St}.
Arguments Sent {M V E St}. Arguments Queued {M V E St}. Arguments Inside {M V E St}. Arguments Awaiting {M V E St}.
Arguments Yielded {M V E St}. Arguments Delegated {M V E St}. Arguments Done {M V E St}.
Arguments Ran {V E St}. Arguments Stopped {V E St}. Arguments Got {V E St}. Arguments GotOne {V E St}.
Arguments mkTask {M V E St}. Arguments t_call {M V E St}. Arguments t_state {M V E St}. Arguments t_log {M V E St}.
Arguments mkRan {St}. Arguments r_task {St}. Arguments r_actor {St}. Arguments r_before {St}. Arguments r_after {St}. Arguments r_kept {St}.
Arguments mkSt {M V E St}. Arguments tasks {M V E St}. Arguments holder {M V E St}. Arguments queue {M V E St}.
Arguments mem {M V E St}. Arguments hist {M V E St}. Arguments marked {M V E St}.
Arguments Call {M}. Arguments Arrive {M}. Arguments Grant {M}. Arguments Run {M}. Arguments Resume {M}.
Arguments Cancel {M}. Arguments Deliver {M}. Arguments LeaveSending {M}. Arguments Replied {M}. Arguments Again {M}.
