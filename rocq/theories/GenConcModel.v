(** * GenConcModel: several calls at once for the items of one remote generator

    Models [__xoscar_next__] (/repo/python/xoscar/api.py 420-473) step by step, as run by an [Actor], whose
    methods hold the actor's lock, or a [StatelessActor], which has none (core.pyx 578-590), for a plain
    generator, whose [next] runs in a thread ([asyncio.to_thread], 451), or an async one, whose [__anext__] runs in a
    task (453); destroying the generator (475-486, called in 463 and 467); and the cancelling of such a call.

    Python: a generator that is running and is asked for an item raises ([already executing], or
    [asynchronous generator is already running]); one that has ended ends again.  Cancelling an [await] of
    [to_thread] ends the [await] while the thread goes on, unless it has not begun; cancelling an [await] of
    a task cancels the task, which raises CancelledError in the async generator, and so ends it.

    Simplifications: one generator, numbered calls; who gets the free lock is open (C11 says who).  An async
    generator that is cancelled ends at once and does not catch CancelledError.  What the
    client makes of the answers is C28.  Items are numbers. *)
From Coq Require Import List Arith Bool String.
Import ListNotations.

Inductive ending := Return | Raises (msg : string).
Inductive result :=
| Item (v : nat) | Stopped (* the answer that ends the iteration, 469 *)
| Raised (msg : string)
| Busy                     (* the generator is already running *)
| NoIterator               (* 473: no iterator with this id *)
| Cancelled.
Inductive phase :=
| Waiting     (* for the lock *)
| Looked      (* has looked up the generator; its thread or task has not begun *)
| Inside      (* its thread or task runs the generator *)
| Done (r : result).
Record st := mkS {
  items : list nat;            (** what the generator will yet yield *)
  fin : ending;
  registered : bool;           (** it is in _generators *)
  running : option nat;        (** the call whose thread or task is in it *)
  lock : option nat;
  calls : nat -> option phase;
  log : list (nat * result) }. (** the calls that have ended, oldest first *)
Inductive event := Call (i : nat) | Begin (i : nat) | Enter (i : nat) | Yield (i : nat) | Cancel (i : nat).

Definition set_call (s : st) i p := mkS (items s) (fin s) (registered s) (running s) (lock s) (fun j => if j =? i then Some p else calls s j) (log s).
Definition set_gen (s : st) l e := mkS l e (registered s) (running s) (lock s) (calls s) (log s).
Definition set_running (s : st) r := mkS (items s) (fin s) (registered s) r (lock s) (calls s) (log s).
Definition set_lock (s : st) r := mkS (items s) (fin s) (registered s) (running s) r (calls s) (log s).
(** 475-486 *)
Definition destroy (s : st) := mkS (items s) (fin s) false (running s) (lock s) (calls s) (log s).
(** The call ends, and gives back the lock if it holds it. *)
Definition finish (s : st) i r := mkS (items s) (fin s) (registered s) (running s)
  (match lock s with Some j => if j =? i then None else Some j | None => None end)
  (fun j => if j =? i then Some (Done r) else calls s j) (log s ++ [(i, r)]).

Section Step.
Variable locked : bool.   (** Actor, or StatelessActor *)
Variable asynchronous : bool.  (** async generator, or generator *)
Definition step (s : st) (x : event) : option st :=
  match x with
  | Call i => match calls s i with None => Some (set_call s i Waiting) | Some _ => None end
  | Begin i =>                                                     (* 447 *)
      match calls s i with
      | Some Waiting =>
          if locked && match lock s with Some _ => true | None => false end then None
          else if registered s
          then Some (set_call (if locked then set_lock s (Some i) else s) i Looked)
          else Some (finish s i NoIterator)
      | _ => None
      end
  | Enter i =>                                                     (* 436, 443 *)
      match calls s i with
      | Some Looked =>
          match running s with
          | Some _ => Some (finish (destroy s) i Busy)             (* 459-465 *)
          | None => Some (set_call (set_running s (Some i)) i Inside)
          end
      | _ => None
      end
  | Yield i =>
      match running s with
      | Some j =>
          if j =? i then
            let r := match items s with v :: _ => Item v | [] => match fin s with Return => Stopped | Raises m => Raised m end end in
            let s1 := set_running (match items s with _ :: l => set_gen s l (fin s) | [] => set_gen s [] Return end) None in
            match calls s i with
            | Some Inside => Some (finish (match items s with _ :: _ => s1 | [] => destroy s1 end) i r)
            | _ => Some s1                                         (* the thread of a cancelled call: nobody takes its result *)
            end
          else None
      | None => None
      end
  | Cancel i =>
      match calls s i with
      | Some Waiting | Some Looked => Some (finish s i Cancelled)
      | Some Inside => Some (finish (if asynchronous then set_running (set_gen s [] Return) None else s) i Cancelled)
      | _ => None
      end
  end.
Fixpoint run (s : st) (tr : list event) : option st :=
  match tr with
  | [] => Some s
  | x :: r => match step s x with Some s' => run s' r | None => None end
  end.
End Step.
Definition fresh (l : list nat) (e : ending) : st := mkS l e true None None (fun _ => None) [].
