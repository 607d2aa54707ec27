(** The main pool's directory of actors, and the pools it directs.
    /repo/python/xoscar/backends/pool.py 908-945 (sub pool) and 1018-1272 (main pool). *)
From Coq Require Import List Bool Arith.
From Verif Require Import Base Dict.
Import ListNotations.

(** Pools are identified by their address, a number; the main pool is 0.
    Allocation strategies as far as the directory is concerned: [At a] is any
    strategy that has come down to address [a] (ConfigModel/C16 treats how), and
    [Idle m] is IdleLabel with (label, mark) = m. *)
Inductive strat := At (a : nat) | Idle (m : nat).
Definition is_idle (m : nat) (s : strat) : bool :=
  match s with Idle m' => Nat.eqb m' m | At _ => false end.

Definition actor := (nat * nat)%type.          (* pool address, uid *)
Definition aeqb (x y : actor) : bool := Nat.eqb (fst x) (fst y) && Nat.eqb (snd x) (snd y).
Definition slot := (nat * option nat)%type.    (* address, reference or the key None *)
Definition seqb (x y : slot) : bool :=
  Nat.eqb (fst x) (fst y) &&
  match snd x, snd y with
  | Some a, Some b => Nat.eqb a b
  | None, None => true
  | _, _ => false
  end.

(** Operations in progress (between two awaits). *)
Inductive task :=
  | TCreate (a u : nat) (s : strat) (reply : option bool)
      (* main pool create_actor; reply None: the pool has not run it yet;
         Some ok: it has, and the reply is on its way *)
  | TDestroy (a u : nat)      (* main pool destroy_actor, the pool has still to run it *)
  | TNotifyCreate (a u : nat) (s : strat)  (* created in a sub pool directly, main not told yet *)
  | TNotifyDestroy (a u : nat).            (* destroyed in a sub pool directly, main not told yet *)

Record state := {
  live : list (actor * strat);    (* the union of all pools' _actors; the strategy the actor
                                     was created with is remembered for the specification *)
  dir : list (slot * strat);      (* _allocated_actors, flattened: [addr][ref] and [addr][None] *)
  tasks : dict task;
  next : nat
}.

(** Outcomes that user code decides. *)
Inductive made := Made | InitFails | HookFails.   (* __init__ raises / __post_create__ raises *)

Inductive event :=
  | Create (s : strat) (u : nat)           (* create_actor arrives at the main pool *)
  | RunCreate (t : nat) (o : made)         (* the chosen pool runs it *)
  | EndCreate (t : nat)                    (* its reply arrives *)
  | LoseCreate (t : nat)                   (* the connection to the sub pool breaks instead *)
  | Destroy (a u : nat)                    (* destroy_actor of a reference arrives at the main pool *)
  | RunDestroy (t : nat) (ok : bool)       (* the pool runs it; ok false: __pre_destroy__ raises *)
  | SubCreate (a u : nat) (s : strat) (o : made)  (* create_actor arrives at sub pool a directly *)
  | SubDestroy (a u : nat) (ok : bool)
  | Notify (t : nat).                      (* the sub pool's message reaches the main pool *)

Inductive answer := ANone | AAddress (a : nat) | ANoIdleSlot | AKeyError | AActorNotExist.

Section Main.
  (** The addresses known to the main pool (1021-1025), main first, and the
      addresses with a label. *)
  Variable addrs : list nat.
  Variable slots : nat -> list nat.

  Definition recorded (d : list (slot * strat)) (a u : nat) : option strat := gget seqb d (a, Some u).
  Definition alive (l : list (actor * strat)) (a u : nat) : option strat := gget aeqb l (a, u).

  (** allocate_strategy.py 153-158: is one of the strategies recorded at [a] this one? *)
  Definition occupied (d : list (slot * strat)) (m a : nat) : bool :=
    existsb (fun e => Nat.eqb (fst (fst e)) a && is_idle m (snd e)) d.

  (** allocate_strategy.py 141-162 *)
  Definition pick (d : list (slot * strat)) (s : strat) : option nat :=
    match s with
    | At a => Some a
    | Idle m => find (fun a => negb (occupied d m a)) (slots m)
    end.

  (** pool.py 1093-1105 *)
  Definition has_actor (st : state) (u : nat) : bool :=
    existsb (fun a => match recorded (dir st) a u with Some _ => true | None => false end) addrs.

  (** pool.py 1171-1187 *)
  Definition actor_ref (st : state) (a u : nat) : option nat :=
    if Nat.eqb a 0 && match alive (live st) 0 u with Some _ => true | None => false end
    then Some 0
    else find (fun b => match recorded (dir st) b u with Some _ => true | None => false end) addrs.

  Definition with_task (st : state) (l : list (actor * strat)) (d : list (slot * strat)) (t : task) : state :=
    {| live := l; dir := d; tasks := dset (tasks st) (next st) t; next := S (next st) |}.
  Definition end_task (st : state) (l : list (actor * strat)) (d : list (slot * strat)) (i : nat) : state :=
    {| live := l; dir := d; tasks := ddel (tasks st) i; next := next st |}.

  (** pool.py 610-631: create in the pool itself.  A failing __post_create__
      leaves the actor registered. *)
  Definition pool_create (l : list (actor * strat)) (a u : nat) (s : strat) (o : made)
      : list (actor * strat) * bool :=
    match alive l a u with
    | Some _ => (l, false)
    | None =>
        match o with
        | Made => (gset aeqb l (a, u) s, true)
        | InitFails => (l, false)
        | HookFails => (gset aeqb l (a, u) s, false)
        end
    end.

  (** pool.py 642-660 *)
  Definition pool_destroy (l : list (actor * strat)) (a u : nat) (ok : bool) : list (actor * strat) * bool :=
    match alive l a u with
    | None => (l, false)
    | Some _ => if ok then (gdel aeqb l (a, u), true) else (l, false)
    end.

  (** pool.py 1107-1131 up to the await: look the reference up; for an actor of
      a sub pool its entry is removed before the sub pool is asked. *)
  Definition main_destroy (st : state) (a u : nat) : state * answer :=
    match actor_ref st a u with
    | None => (st, AActorNotExist)
    | Some b =>
        let d := if Nat.eqb b 0 then dir st else gdel seqb (dir st) (b, Some u) in
        (with_task st (live st) d (TDestroy b u), AAddress b)
    end.

  Definition step (st : state) (e : event) : state * answer :=
    match e with
    | Create s u =>
        (* pool.py 1050-1055 *)
        match pick (dir st) s with
        | None => (st, ANoIdleSlot)
        | Some a =>
            if existsb (Nat.eqb a) addrs then
              (with_task st (live st) (gset seqb (dir st) (a, None) s) (TCreate a u s None), AAddress a)
            else (st, AKeyError)
        end
    | RunCreate i o =>
        match dget (tasks st) i with
        | Some (TCreate a u s None) =>
            let '(l, ok) := pool_create (live st) a u s o in
            ({| live := l; dir := dir st; tasks := dset (tasks st) i (TCreate a u s (Some ok));
                next := next st |}, ANone)
        | _ => (st, ANone)
        end
    | EndCreate i =>
        (* pool.py 1059-1063, 1080-1089 *)
        match dget (tasks st) i with
        | Some (TCreate a u s (Some ok)) =>
            let d := if ok then gset seqb (dir st) (a, Some u) s else dir st in
            (end_task st (live st) (gdel seqb d (a, None)) i, ANone)
        | _ => (st, ANone)
        end
    | LoseCreate i =>
        (* self.call raises: lines 1080-1089 are skipped *)
        match dget (tasks st) i with
        | Some (TCreate a u s _) => if Nat.eqb a 0 then (st, ANone) else (end_task st (live st) (dir st) i, ANone)
        | _ => (st, ANone)
        end
    | Destroy a u => main_destroy st a u
    | RunDestroy i ok =>
        match dget (tasks st) i with
        | Some (TDestroy a u) =>
            let '(l, done) := pool_destroy (live st) a u ok in
            let d := if Nat.eqb a 0 && done then gdel seqb (dir st) (a, Some u) else dir st in
            (end_task st l d i, ANone)
        | _ => (st, ANone)
        end
    | SubCreate a u s o =>
        (* pool.py 926-931: the main pool is told whatever the outcome *)
        let '(l, _) := pool_create (live st) a u s o in
        (with_task st l (dir st) (TNotifyCreate a u s), ANone)
    | SubDestroy a u ok =>
        (* pool.py 947-953 *)
        let '(l, done) := pool_destroy (live st) a u ok in
        if done then (with_task st l (dir st) (TNotifyDestroy a u), ANone)
        else ({| live := l; dir := dir st; tasks := tasks st; next := next st |}, ANone)
    | Notify i =>
        match dget (tasks st) i with
        | Some (TNotifyCreate a u s) =>
            (* pool.py 1260-1272; KeyError for an unknown address *)
            (end_task st (live st)
               (if existsb (Nat.eqb a) addrs then gset seqb (dir st) (a, Some u) s else dir st) i, ANone)
        | Some (TNotifyDestroy a u) =>
            (* the main pool handles the sub pool's DestroyActorMessage *)
            let st' := end_task st (live st) (dir st) i in
            (fst (main_destroy st' a u), ANone)
        | _ => (st, ANone)
        end
    end.

  Definition init : state := {| live := []; dir := []; tasks := []; next := 0 |}.
  Definition run (st : state) (es : list event) : state := fold_left (fun s e => fst (step s e)) es st.
End Main.
