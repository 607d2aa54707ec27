(** Extensible methods and batches.
    Source: /repo/python/xoscar/batch.py (line numbers below) and
    /repo/python/xoscar/core.pyx 196-226 (client), 533-552 (server).

    Simplified / not modelled: user functions are outcomes by arguments (no side
    effects, no waiting); cancellation of a running batch (batch.py 155-157);
    bind; the actor lock (LockModel); positional and keyword arguments are lists
    of numbers, and of pairs of names and numbers. *)
From Coq Require Import List Arith Bool.
Import ListNotations.

Definition args := list nat.
Definition kwargs := list (nat * nat).
Inductive exn := User (n : nat) | NotImplementedError | TypeError | IndexError | ValueError.
Inductive outcome (V : Type) := Ok (v : V) | Raise (e : exn).
Arguments Ok {V} _. Arguments Raise {V} _.

Section Batch.
  Variable V : Type.
  Variable none : V.            (** Python's None *)

  (** What the user wrote: the function and the function given to .batch, which
      returns a list or None. *)
  Record user := {
    func : args -> kwargs -> outcome V;
    batch_func : option (list args -> list kwargs -> outcome (option (list V)));
    is_async : bool
  }.

  (** asyncio.gather without return_exceptions: the results in order, or the
      error of the task that failed first, which can be any of the failing ones. *)
  Inductive gather : list (outcome V) -> outcome (list V) -> Prop :=
  | g_ok : forall vs, gather (map Ok vs) (Ok vs)
  | g_err : forall os e, In (Raise e) os -> gather os (Raise e).
  (** A list comprehension: the error of the first failing call in order. *)
  Fixpoint in_turn (os : list (outcome V)) : outcome (list V) :=
    match os with
    | [] => Ok []
    | Raise e :: _ => Raise e
    | Ok v :: os' => match in_turn os' with Ok vs => Ok (v :: vs) | Raise e => Raise e end
    end.

  (** 98-124: _async_call and _sync_call; the boolean is has_single_func, before
      and after. *)
  Definition call (u : user) (single : bool) (a : args) (k : kwargs) : bool * outcome V :=
    let rest :=
      match batch_func u with
      | Some b =>
          match b [a] [k] with
          | Raise e => Raise e
          | Ok None => if is_async u then Ok none else Raise TypeError   (* None[0] *)
          | Ok (Some []) => Raise IndexError
          | Ok (Some (v :: _)) => Ok v
          end
      | None => Raise NotImplementedError
      end in
    if single then
      match func u a k with
      | Raise NotImplementedError => (false, rest)
      | o => (true, o)
      end
    else (false, rest).

  (** [zip], 149-153 and 170-172 *)
  Definition each (u : user) (al : list args) (kl : list kwargs) : list (outcome V) :=
    map (fun p => func u (fst p) (snd p)) (combine al kl).

  (** The answer to a batch: a list, or None if the batch function returned None *)
  Definition wrap (o : outcome (list V)) : outcome (option (list V)) :=
    match o with Ok vs => Ok (Some vs) | Raise e => Raise e end.

  (** 137-186: call_with_lists, i.e. _async_batch or _sync_batch.  An index into a
      list that is too short does not happen with a batch's lists. *)
  Inductive call_lists (u : user) (single : bool) (al : list args) (kl : list kwargs) : outcome (option (list V)) -> Prop :=
  | b_empty : al = [] -> call_lists u single al kl (Ok (Some []))
  | b_one : forall a k, is_async u = true -> al = [a] -> kl = [k] ->
      call_lists u single al kl (wrap (match snd (call u single a k) with Ok v => Ok [v] | Raise e => Raise e end))
  | b_batch : forall b, al <> [] -> (is_async u = true -> length al <> 1) -> batch_func u = Some b ->
      call_lists u single al kl (b al kl)
  | b_gather : forall r, al <> [] -> is_async u = true -> length al <> 1 -> batch_func u = None ->
      gather (each u al kl) r -> call_lists u single al kl (wrap r)
  | b_turn : al <> [] -> is_async u = false -> batch_func u = None ->
      call_lists u single al kl (wrap (in_turn (each u al kl))).

  (** *** Through a reference *)

  (** A delay: method, args, kwargs (core.pyx 192-194). *)
  Definition delay := (nat * args * kwargs)%type.
  (** core.pyx 204-218: the lists and the common method *)
  Fixpoint collect (last : option nat) (ds : list delay) : outcome (option nat * list args * list kwargs) :=
    match ds with
    | [] => Ok (last, [], [])
    | (m, a, k) :: ds' =>
        match last with
        | Some m' => if m =? m' then
                       match collect (Some m) ds' with
                       | Ok (l, al, kl) => Ok (l, a :: al, k :: kl) | Raise e => Raise e end
                     else Raise ValueError
        | None => match collect (Some m) ds' with
                  | Ok (l, al, kl) => Ok (l, a :: al, k :: kl) | Raise e => Raise e end
        end
    end.
  (** core.pyx 196-226: the message (method, args_list, kwargs_list or None) *)
  Definition batch_message (self_method : nat) (ds : list delay) : outcome (nat * list args * option (list kwargs)) :=
    match collect None ds with
    | Raise e => Raise e
    | Ok (last, al, kl) =>
        let has_kw := existsb (fun k => match k with [] => false | _ => true end) kl in
        Ok (match last with Some m => m | None => self_method end, al, if has_kw then Some kl else None)
    end.
  (** core.pyx 533-552; every getattr of an extensible method makes a new wrapper
      (batch.py 211-240), so has_single_func is true. *)
  Inductive serve (actor : nat -> user) : nat * list args * option (list kwargs) -> outcome (option (list V)) -> Prop :=
  | sv : forall m al okl r,
      call_lists (actor m) true al (match okl with Some kl => kl | None => map (fun _ => []) al end) r ->
      serve actor (m, al, okl) r.
  Inductive remote_batch (actor : nat -> user) (self_method : nat) (ds : list delay) : outcome (option (list V)) -> Prop :=
  | rb_fail : forall e, batch_message self_method ds = Raise e -> remote_batch actor self_method ds (Raise e)
  | rb_ok : forall msg r, batch_message self_method ds = Ok msg -> serve actor msg r -> remote_batch actor self_method ds r.
  (** core.pyx 184-186, 512-532: one call *)
  Definition remote_call (actor : nat -> user) (m : nat) (a : args) (k : kwargs) : outcome V :=
    snd (call (actor m) true a k).
End Batch.

Arguments func {V}. Arguments batch_func {V}. Arguments is_async {V}.
