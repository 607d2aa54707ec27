(** Model of the routing table of one operating-system process in which any
    number of actor pools start, gain and lose worker processes, and stop.
    Sources: python/xoscar/backends/router.py (add_router 98-104, remove_router
    106-116), python/xoscar/backends/pool.py (_sync_pool_config 333-341,
    _parse_config 450-472, stop 506-523, _set_global_router 735-743, create
    799-849, stop of a main pool 1346-1350), python/xoscar/backends/config.py
    (external_to_internal_address_map 128-130, reset_pool_external_address
    97-116, remove_pool_config 75-78), python/xoscar/backends/indigen/pool.py
    (append_sub_pool 341-405, remove_sub_pool 407-422).

    The table of a pool's processes ([external_to_internal_address_map]) is one
    dictionary that the pool's configuration and its router share: routers are
    made with this very dictionary (pool.py 463, 785) and [set_mapping] puts it
    back (pool.py 339).  Only [add_router] copies it, into the process's router.

    Simplified: the connection cache (C19) and [comm_config] are left out; what
    happens between two awaits is one operation. *)
From Coq Require Import String List Bool Arith.
From Verif Require Import Dict RouterModel.
Import ListNotations.
Open Scope string_scope.
Open Scope list_scope.

Notation table := (list (addr * option addr)).

(** What one pool keeps: its own addresses, its in-process address
    (gen_local_address), the table of all its processes, its proxies. *)
Record pool := { own : list addr; loc : addr; tab : table; prx : list (addr * addr) }.

(** pool.py 460-466: the pool's router (router.py 60-76: every own address is
    mapped to the in-process address) *)
Definition router_of (p : pool) : rconf :=
  {| r_cur := own p;
     r_local := fold_left (fun d a => gset String.eqb d a (Some (loc p))) (own p) [];
     r_mapping := tab p;
     r_proxy := prx p |}.

(** [d.update(e)] *)
Definition update {V} (d e : list (addr * V)) : list (addr * V) :=
  fold_left (fun d kv => gset String.eqb d (fst kv) (snd kv)) e d.
(** [for k in e: d.pop(k, None)] *)
Definition pop_all {V W} (d : list (addr * V)) (e : list (addr * W)) : list (addr * V) :=
  fold_left (fun d kv => gdel String.eqb d (fst kv)) e d.
(** [l.remove(a)], without an error if it is not there (107-111) *)
Fixpoint remove_first (a : addr) (l : list addr) : list addr :=
  match l with
  | [] => []
  | b :: l' => if String.eqb b a then l' else b :: remove_first a l'
  end.

(** router.py 98-104 *)
Definition add_router (g r : rconf) : rconf :=
  {| r_cur := r_cur g ++ r_cur r;
     r_local := update (r_local g) (r_local r);
     r_mapping := update (r_mapping g) (r_mapping r);
     r_proxy := update (r_proxy g) (r_proxy r) |}.

(** router.py 106-116 *)
Definition remove_router (g r : rconf) : rconf :=
  {| r_cur := fold_left (fun l a => remove_first a l) (r_cur r) (r_cur g);
     r_local := pop_all (r_local g) (r_local r);
     r_mapping := pop_all (r_mapping g) (r_mapping r);
     r_proxy := r_proxy g |}.

(** router.py 58: a process without pools *)
Definition no_router : rconf := {| r_cur := []; r_local := []; r_mapping := []; r_proxy := [] |}.

Record state := { global : rconf; pools : list (nat * pool) }.

Inductive op :=
  | Start (p : nat) (q : pool)                 (** pool.py 799-849: a pool was made *)
  | Learn (p : nat) (a : addr) (i : option addr)  (** mapping[a] = i (config.py 71-73, 115-116) *)
  | Forget (p : nat) (a : addr)                (** a key of the mapping is removed (config.py 78, 112) *)
  | Sync (p : nat)                             (** pool.py 333-341, with the pool's own configuration object *)
  | Receive (p : nat) (t : table)              (** the same, with a configuration that came in a message *)
  | Stop (p : nat).                            (** pool.py 1348-1350 and once more 510-512 *)

Definition get (s : state) (p : nat) : option pool := gget Nat.eqb (pools s) p.
Definition set_tab (q : pool) (t : table) : pool := {| own := own q; loc := loc q; tab := t; prx := prx q |}.
Definition put (s : state) (p : nat) (q : pool) : list (nat * pool) := gset Nat.eqb (pools s) p q.

Definition apply (s : state) (o : op) : state :=
  match o with
  | Start p q => {| global := add_router (global s) (router_of q); pools := put s p q |}
  | Learn p a i =>
      match get s p with
      | Some q => {| global := global s; pools := put s p (set_tab q (gset String.eqb (tab q) a i)) |}
      | None => s
      end
  | Forget p a =>
      match get s p with
      | Some q => {| global := global s; pools := put s p (set_tab q (gdel String.eqb (tab q) a)) |}
      | None => s
      end
  | Sync p =>
      match get s p with
      | Some q => {| global := add_router (remove_router (global s) (router_of q)) (router_of q); pools := pools s |}
      | None => s
      end
  | Receive p t =>
      match get s p with
      | Some q =>
          {| global := add_router (remove_router (global s) (router_of q)) (router_of (set_tab q t));
             pools := put s p (set_tab q t) |}
      | None => s
      end
  | Stop p =>
      match get s p with
      | Some q => {| global := remove_router (global s) (router_of q); pools := pools s |}
      | None => s
      end
  end.

Definition initial : state := {| global := no_router; pools := [] |}.
Definition run (os : list op) : state := fold_left apply os initial.
