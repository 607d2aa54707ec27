(** Model of the treatment of an actor method's return value.
    Source: python/xoscar/core.pyx, _BaseActor._handle_actor_result 392-456.

    Values and user exceptions are abstract.  A coroutine is represented by what
    it produces when it is run to its end; [CGen] stands for an async generator
    wrapped by _run_actor_async_generator (458-493), represented the same way.
    Coroutine objects are distinct (a coroutine can be awaited only once), so the
    test [t is coros\[0\]] (428) is a test of position. *)
From Coq Require Import List Arith Bool Lia.
Import ListNotations.

Section Result.
  Variables V E : Type.

  Inductive exc := User (e : E) | IndexErr | CancelErr.

  Inductive outcome (A : Type) := Ok (a : A) | Raise (x : exc).
  Arguments Ok {A}. Arguments Raise {A}.

  Inductive item :=
  | Plain (v : V)
  | CCoro (o : outcome V)
  | CGen (o : outcome V).

  (** 413-418: [is_async_generator] or [isawaitable]: the coroutine run for the item. *)
  Definition coro_of (i : item) : option (outcome V) :=
    match i with Plain _ => None | CCoro o => Some o | CGen o => Some o end.

  Definition is_coro (i : item) : bool :=
    match coro_of i with Some _ => true | None => false end.

  (** 408-422: [coros] and [coro_poses]; [idx] is the enumerate counter. *)
  Fixpoint collect (idx : nat) (items : list item) : list (outcome V) * list nat :=
    match items with
    | [] => ([], [])
    | i :: items' =>
        let (coros, poses) := collect (S idx) items' in
        match coro_of i with
        | Some o => (o :: coros, idx :: poses)
        | None => (coros, poses)
        end
    end.

  (** [values]: an item is a value, or still a coroutine. *)
  Definition slot := (option V).
  Definition values_of (items : list item) : list slot :=
    map (fun i => match i with Plain v => Some v | _ => None end) items.

  (** 428: [tuple(task_result if t is coros[0] else t for t in values)] *)
  Definition subst_single (r : V) (vals : list slot) : list slot :=
    map (fun t => match t with None => Some r | Some v => Some v end) vals.

  Fixpoint set_nth (l : list slot) (n : nat) (v : slot) : list slot :=
    match l, n with
    | [], _ => []
    | _ :: l', 0 => v :: l'
    | x :: l', S n' => x :: set_nth l' n' v
    end.

  (** 444-446: [for pos in coro_poses: task = tasks[pos]; values[pos] = task.result()] *)
  Fixpoint fill (tasks : list (outcome V)) (poses : list nat) (vals : list slot)
    : outcome (list slot) :=
    match poses with
    | [] => Ok vals
    | pos :: poses' =>
        match nth_error tasks pos with
        | None => Raise IndexErr
        | Some (Raise x) => Raise x
        | Some (Ok v) => fill tasks poses' (set_nth vals pos (Some v))
        end
    end.

  (** 407-452 for a tuple result ([extract_tuple] false).  [cancelled]: the
      caller was cancelled during [asyncio.wait] (432-438); the coroutines'
      outcomes are then those they reach after being cancelled. *)
  Definition handle_tuple (cancelled : bool) (items : list item) : outcome (list slot) :=
    let (coros, poses) := collect 0 items in
    match coros with
    | [] => Ok (values_of items)
    | [o] => match o with
             | Ok v => Ok (subst_single v (values_of items))
             | Raise x => Raise x
             end
    | _ => match fill coros poses (values_of items) with
           | Raise x => Raise x
           | Ok vals => if cancelled then Raise CancelErr else Ok vals
           end
    end.

  (** What a method can return, and what the caller then gets. *)
  Inductive result :=
  | RVal (v : V)                         (** neither awaitable, generator nor tuple *)
  | RTuple (items : list item)
  | RGen (o : outcome V)                 (** an async generator *)
  | RAwait (o : outcome result).         (** an awaitable *)

  Inductive reply :=
  | Value (v : V)
  | Tuple (vals : list slot)
  | Unhandled (r : result).              (** returned as it is *)

  Definition wrap (o : outcome (list slot)) : outcome reply :=
    match o with Ok l => Ok (Tuple l) | Raise x => Raise x end.

  (** 401-456 *)
  Definition handle_result (cancelled : bool) (r : result) : outcome reply :=
    match r with
    | RVal v => Ok (Value v)
    | RTuple items => wrap (handle_tuple cancelled items)
    | RGen (Ok v) => Ok (Value v)
    | RGen (Raise x) => Raise x
    | RAwait (Raise x) => Raise x
    | RAwait (Ok r') =>
        match r' with
        | RTuple items => wrap (handle_tuple cancelled items)
        | RVal v => Ok (Value v)
        | _ => Ok (Unhandled r')
        end
    end.
End Result.

Arguments Ok {E A}. Arguments Raise {E A}.
Arguments User {E}. Arguments IndexErr {E}. Arguments CancelErr {E}.
Arguments Plain {V E}. Arguments CCoro {V E}. Arguments CGen {V E}.
Arguments coro_of {V E}. Arguments is_coro {V E}. Arguments collect {V E}.
Arguments values_of {V E}. Arguments subst_single {V}. Arguments set_nth {V}.
Arguments fill {V E}. Arguments handle_tuple {V E}. Arguments handle_result {V E}.
Arguments RVal {V E}. Arguments RTuple {V E}. Arguments RGen {V E}. Arguments RAwait {V E}.
Arguments Value {V E}. Arguments Tuple {V E}. Arguments Unhandled {V E}. Arguments wrap {V E}.
