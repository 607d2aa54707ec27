(** alru_cache.  Source: /repo/python/xoscar/aio/lru.py (line numbers below).

    Keys (_make_key of the arguments, 165) are numbers: equal keys, equal numbers.
    A future and the task that computes it have one number; futures are numbered
    in the order they are created.

    Simplified / not modelled: the arguments of the computation; several event
    loops; unhashable arguments; `wraps`/partial support (151-158).  [maxsize] is
    None or a natural number.  A task's end and its done-callback (50-61) are one
    event: a call in between finds the future not done and waits on it, as a call
    before the end does.  close (100-112): cancelling the tasks shows up as events
    [EDone f OCancelled]; the cache_clear when all tasks are done (127-128) is the
    event [EClear], which here may happen at any time. *)
From Coq Require Import List Arith Bool.
From Verif Require Import Base Dict.
Import ListNotations.

Inductive outcome := OValue (v : nat) | OError (e : nat) | OCancelled.

Record st := {
  cache : list (nat * nat);          (** wrapped._cache: key, future; the oldest first *)
  futs : list (option outcome);      (** by number; None: not done *)
  hits : nat; misses : nat;
  closed : bool;
  tasks : list nat                   (** wrapped.tasks *)
}.
(** 191-193 *)
Definition init : st := {| cache := []; futs := []; hits := 0; misses := 0; closed := false; tasks := [] |}.

Inductive ev :=
| ECall (k : nat) | EDone (f : nat) (o : outcome) | EInvalidate (k : nat) | EClear | EClose | EOpen.
Inductive out :=
| RClosed                 (** RuntimeError, the cache is closed *)
| RNow (o : outcome)      (** the call returns / raises at once *)
| RJoin (f : nat)         (** waits for a computation started before *)
| RNew (f : nat)          (** starts the computation f and waits for it *)
| RBool (b : bool)        (** result of invalidate *)
| ROk | RError.

(** 140-144: move_to_end, if the key is there *)
Definition touch (c : list (nat * nat)) (k : nat) : list (nat * nat) :=
  match gget Nat.eqb c k with Some f => gdel Nat.eqb c k ++ [(k, f)] | None => c end.

Definition hit (s : st) (k : nat) : st :=
  {| cache := touch (cache s) k; futs := futs s; hits := S (hits s); misses := misses s;
     closed := closed s; tasks := tasks s |}.

(** 175-189 *)
Definition compute (maxsize : option nat) (s : st) (c : list (nat * nat)) (k : nat) : st :=
  let f := length (futs s) in
  let c1 := gset Nat.eqb c k f in
  let c2 := match maxsize with Some n => if n <? length c1 then tl c1 else c1 | None => c1 end in
  {| cache := touch c2 k; futs := futs s ++ [None]; hits := hits s; misses := S (misses s);
     closed := closed s; tasks := tasks s ++ [f] |}.

(** 159-189.  [fut._exception] is None for values and for cancelled futures;
    fut.result() of a cancelled future raises CancelledError. *)
Definition call (maxsize : option nat) (cache_exceptions : bool) (s : st) (k : nat) : st * out :=
  if closed s then (s, RClosed)
  else match gget Nat.eqb (cache s) k with
       | Some f =>
           match nth_error (futs s) f with
           | Some (Some o) =>
               let exc := match o with OError _ => true | OValue _ | OCancelled => false end in
               if negb exc || cache_exceptions then (hit s k, RNow o)
               else (compute maxsize s (gdel Nat.eqb (cache s) k) k, RNew (length (futs s)))
           | _ => (hit s k, RJoin f)
           end
       | None => (compute maxsize s (cache s) k, RNew (length (futs s)))
       end.

Definition step (maxsize : option nat) (ce : bool) (s : st) (e : ev) : st * out :=
  match e with
  | ECall k => call maxsize ce s k
  | EDone f o =>
      (* 50-61 and tasks.remove, 182 *)
      match nth_error (futs s) f with
      | Some None =>
          ({| cache := cache s; futs := lset (futs s) f (Some o); hits := hits s; misses := misses s;
              closed := closed s; tasks := filter (fun x => negb (x =? f)) (tasks s) |}, ROk)
      | _ => (s, RError)
      end
  | EInvalidate k =>
      (* 64-72 *)
      match gget Nat.eqb (cache s) k with
      | Some _ => ({| cache := gdel Nat.eqb (cache s) k; futs := futs s; hits := hits s; misses := misses s;
                      closed := closed s; tasks := tasks s |}, RBool true)
      | None => (s, RBool false)
      end
  | EClear =>
      (* 75-78 *)
      ({| cache := []; futs := futs s; hits := 0; misses := 0; closed := closed s; tasks := [] |}, ROk)
  | EClose =>
      (* 96-100 *)
      if closed s then (s, RError)
      else ({| cache := cache s; futs := futs s; hits := hits s; misses := misses s; closed := true;
               tasks := tasks s |}, ROk)
  | EOpen =>
      (* 81-93 *)
      if negb (closed s) then (s, RError)
      else if (hits s =? 0) && (misses s =? 0) && (length (tasks s) =? 0) && (length (cache s) =? 0) then
        ({| cache := cache s; futs := futs s; hits := hits s; misses := misses s; closed := false;
            tasks := tasks s |}, ROk)
      else (s, RError)
  end.

(** What has happened, the newest event first. *)
Definition history := list (ev * out).
Inductive reach (maxsize : option nat) (ce : bool) : st -> history -> Prop :=
| r_init : reach maxsize ce init []
| r_step : forall s h e s' r, reach maxsize ce s h -> step maxsize ce s e = (s', r) ->
    reach maxsize ce s' ((e, r) :: h).

(** _cache_info, 131-137: hits, misses, currsize *)
Definition cache_info (s : st) : nat * nat * nat := (hits s, misses s, length (cache s)).
