(** Model of the membership of an actor pool: which worker processes its main
    pool and each of its workers think there are, while workers are appended,
    removed, lost and restarted, in any interleaving.
    Sources: python/xoscar/backends/indigen/pool.py (append_sub_pool 341-405,
    remove_sub_pool 407-422, recover_sub_pool, _create_sub_pool_from_parent),
    python/xoscar/backends/pool.py (handle_control_command 345-385 and 1206-1234,
    _sync_pool_config 333-341, stop_sub_pool, _update_stored_addresses),
    python/xoscar/backends/config.py (add_pool_conf 44-73, remove_pool_config
    75-78, get_process_index 89-95, reset_pool_external_address 97-116).

    Simplified: of a pool's entry in the configuration only its external address
    is kept (one per pool); routing is C66; what the processes do otherwise is
    left out.  Errors of a control command are swallowed (_ErrorProcessor), the
    caller of append_sub_pool and remove_sub_pool does not see them. *)
From Coq Require Import List Bool Arith.
From Verif Require Import Dict.
Import ListNotations.

(** An external address: a real one, or host:0, which stands in the configuration
    until the worker has chosen its port (indigen/pool.py 355-361). *)
Inductive ext := Unknown | At (a : nat).

(** config.py: self._conf["pools"], process index to external address, in the
    order of a dictionary; the main pool comes first. *)
Notation config := (list (nat * ext)).

(** config.py 97-116 *)
Definition reset (c : config) (i : nat) (a : nat) : config := gset Nat.eqb c i (At a).

(** config.py 89-95 *)
Definition is_at (a : nat) (e : ext) : bool := match e with At b => Nat.eqb b a | Unknown => false end.
Definition index_of (c : config) (a : nat) : option nat :=
  match find (fun kv => is_at a (snd kv)) c with Some (i, _) => Some i | None => None end.

Record state := {
  cfg : config;                          (** the main pool's configuration, one shared object *)
  subs : list (nat * nat);               (** self.sub_processes: address to process *)
  views : list (nat * config);           (** worker process to its own configuration *)
  home : list (nat * nat);               (** worker process to the address at which it listens *)
  dead : list nat;                       (** processes that have ended *)
  starting : list (nat * (nat * config));(** append_sub_pool waiting: process index to process, configuration it was started with *)
  stopping : list (nat * nat);           (** remove_sub_pool waiting: address to process *)
  restarting : list (nat * (nat * config)); (** recover_sub_pool waiting: address to process, configuration *)
  tasks : list nat;                      (** sync calls not sent yet: to which address *)
  wire : list (nat * config)             (** sync messages on the way: to which process, content *)
}.

Inductive op :=
  | Append (i : nat) (e : ext) (p : nat)  (** append_sub_pool is called: process index [i], process [p] is started *)
  | Up (i : nat) (a : nat)                (** the new worker is ready and listens at [a] *)
  | Failed (i : nat)                      (** it has not come up: append_sub_pool raises OSError *)
  | Remove (a : nat)                      (** remove_sub_pool is called *)
  | Stopped (a : nat)                     (** the removed worker has ended *)
  | Send (a p : nat)                      (** a sync call is serialised and sent to the process that listens at [a] *)
  | Unsent (a : nat)                      (** it cannot be sent *)
  | Deliver (n : nat)                     (** the [n]-th message on the way arrives (several connections: any order) *)
  | Lose (n : nat)                        (** it gets lost with its connection *)
  | Crash (p : nat)                       (** a worker process ends unexpectedly *)
  | Restart (a p : nat)                   (** the monitor starts a new process for the worker at [a] *)
  | Restarted (a : nat).                  (** the new process is ready *)

Fixpoint drop_nth {A} (n : nat) (l : list A) : list A :=
  match n, l with
  | _, [] => []
  | 0, _ :: l' => l'
  | S n', x :: l' => x :: drop_nth n' l'
  end.
Fixpoint drop_first (a : nat) (l : list nat) : list nat :=
  match l with [] => [] | b :: l' => if Nat.eqb b a then l' else b :: drop_first a l' end.
Definition memb (a : nat) (l : list nat) : bool := existsb (Nat.eqb a) l.

(** [None]: the operation is not possible in this state. *)
Definition apply (s : state) (o : op) : option state :=
  match o with
  | Append i e p =>
      (* indigen/pool.py 370-392: fresh index and process; the configuration is
         written to shared memory before the first await *)
      if memb i (gkeys (cfg s)) || memb p (gkeys (home s)) || memb p (map (fun x => fst (snd x)) (starting s ++ restarting s)) || memb p (dead s) then None else
      let c := cfg s ++ [(i, e)] in
      Some {| cfg := c; subs := subs s; views := views s; home := home s; dead := dead s;
              starting := gset Nat.eqb (starting s) i (p, c); stopping := stopping s; restarting := restarting s;
              tasks := tasks s; wire := wire s |}
  | Up i a =>
      match gget Nat.eqb (starting s) i with
      | None => None
      | Some (p, c) =>
          (* 394-403; the worker has put its own address into its own copy; pool.py
             1213-1226: one call for each of self.sub_processes *)
          let subs' := gset Nat.eqb (subs s) a p in
          Some {| cfg := reset (cfg s) i a; subs := subs'; views := gset Nat.eqb (views s) p (reset c i a);
                  home := gset Nat.eqb (home s) p a; dead := dead s;
                  starting := gdel Nat.eqb (starting s) i; stopping := stopping s; restarting := restarting s;
                  tasks := tasks s ++ gkeys subs'; wire := wire s |}
      end
  | Failed i =>
      match gget Nat.eqb (starting s) i with
      | None => None
      | Some (p, _) =>
          (* 337-338 raises, nothing is undone *)
          Some {| cfg := cfg s; subs := subs s; views := views s; home := home s; dead := p :: dead s;
                  starting := gdel Nat.eqb (starting s) i; stopping := stopping s; restarting := restarting s;
                  tasks := tasks s; wire := wire s |}
      end
  | Remove a =>
      match gget Nat.eqb (subs s) a, index_of (cfg s) a with
      | Some p, Some i =>
          (* 410-413 *)
          Some {| cfg := gdel Nat.eqb (cfg s) i; subs := gdel Nat.eqb (subs s) a; views := views s; home := home s; dead := dead s;
                  starting := starting s; stopping := stopping s ++ [(a, p)]; restarting := restarting s;
                  tasks := tasks s; wire := wire s |}
      | _, _ => None   (* KeyError, ValueError *)
      end
  | Stopped a =>
      match gget Nat.eqb (stopping s) a with
      | None => None
      | Some p =>
          (* 414-422 *)
          Some {| cfg := cfg s; subs := subs s; views := views s; home := home s; dead := p :: dead s;
                  starting := starting s; stopping := gdel Nat.eqb (stopping s) a; restarting := restarting s;
                  tasks := tasks s ++ gkeys (subs s); wire := wire s |}
      end
  | Send a p =>
      match gget Nat.eqb (home s) p with
      | Some b =>
          if Nat.eqb b a && memb a (tasks s) && negb (memb p (dead s)) then
            (* the message refers to the shared configuration, which is serialised now *)
            Some {| cfg := cfg s; subs := subs s; views := views s; home := home s; dead := dead s;
                    starting := starting s; stopping := stopping s; restarting := restarting s;
                    tasks := drop_first a (tasks s); wire := wire s ++ [(p, cfg s)] |}
          else None
      | None => None
      end
  | Unsent a =>
      if memb a (tasks s) then
        Some {| cfg := cfg s; subs := subs s; views := views s; home := home s; dead := dead s;
                starting := starting s; stopping := stopping s; restarting := restarting s;
                tasks := drop_first a (tasks s); wire := wire s |}
      else None
  | Deliver n =>
      match nth_error (wire s) n with
      | None => None
      | Some (p, c) =>
          (* pool.py 333-341 in the worker *)
          Some {| cfg := cfg s; subs := subs s; views := gset Nat.eqb (views s) p c; home := home s; dead := dead s;
                  starting := starting s; stopping := stopping s; restarting := restarting s;
                  tasks := tasks s; wire := drop_nth n (wire s) |}
      end
  | Lose n =>
      match nth_error (wire s) n with
      | None => None
      | Some _ =>
          Some {| cfg := cfg s; subs := subs s; views := views s; home := home s; dead := dead s;
                  starting := starting s; stopping := stopping s; restarting := restarting s;
                  tasks := tasks s; wire := drop_nth n (wire s) |}
      end
  | Crash p =>
      match gget Nat.eqb (home s) p with
      | None => None
      | Some _ =>
          Some {| cfg := cfg s; subs := subs s; views := views s; home := home s; dead := p :: dead s;
                  starting := starting s; stopping := stopping s; restarting := restarting s;
                  tasks := tasks s; wire := wire s |}
      end
  | Restart a p =>
      match gget Nat.eqb (subs s) a, index_of (cfg s) a with
      | Some q, Some _ =>
          (* recover_sub_pool: the configuration of this moment *)
          if memb q (dead s) && negb (memb a (gkeys (restarting s))) && negb (memb p (gkeys (home s)))
             && negb (memb p (dead s)) && negb (memb p (map (fun x => fst (snd x)) (starting s ++ restarting s))) then
            Some {| cfg := cfg s; subs := subs s; views := views s; home := home s; dead := dead s;
                    starting := starting s; stopping := stopping s; restarting := gset Nat.eqb (restarting s) a (p, cfg s);
                    tasks := tasks s; wire := wire s |}
          else None
      | _, _ => None
      end
  | Restarted a =>
      match gget Nat.eqb (restarting s) a with
      | None => None
      | Some (p, c) =>
          (* no sync follows *)
          Some {| cfg := cfg s; subs := gset Nat.eqb (subs s) a p; views := gset Nat.eqb (views s) p c;
                  home := gset Nat.eqb (home s) p a; dead := dead s;
                  starting := starting s; stopping := stopping s; restarting := gdel Nat.eqb (restarting s) a;
                  tasks := tasks s; wire := wire s |}
      end
  end.

(** A main pool at address [m] with process index [i] and no workers yet. *)
Definition initial (i m : nat) : state :=
  {| cfg := [(i, At m)]; subs := []; views := []; home := []; dead := []; starting := []; stopping := [];
     restarting := []; tasks := []; wire := [] |}.

Fixpoint run (s : state) (os : list op) : option state :=
  match os with
  | [] => Some s
  | o :: os' => match apply s o with Some s' => run s' os' | None => None end
  end.

(** What get_pool_config tells: the external addresses, asked at the main pool and
    at the worker process [p] (pool.py 366-373). *)
Definition told_by_main (s : state) : list ext := map snd (cfg s).
Definition told_by_worker (s : state) (p : nat) : option (list ext) :=
  match gget Nat.eqb (views s) p with Some c => Some (map snd c) | None => None end.

(** Where create_actor with the strategy Random may put an actor
    (allocate_strategy.py 84-91: choice of get_external_addresses()). *)
Definition random_may_pick (s : state) (e : ext) : Prop := In e (map snd (cfg s)).
