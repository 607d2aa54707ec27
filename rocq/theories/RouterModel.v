(** Router: address mapping, proxies and the client cache.
    /repo/python/xoscar/backends/router.py *)
From Coq Require Import List Bool Arith String Ascii.
From Verif Require Import Dict.
Import ListNotations.
Open Scope string_scope.

Definition addr := string.

(** router.py 257: [from_addr.split(":", 1)[0]] *)
Fixpoint host (s : string) : string :=
  match s with
  | EmptyString => ""
  | String c s' => if Ascii.eqb c ":"%char then "" else String c (host s')
  end.

(** router.py 70-95, the fields of a router.  Simplified: [comm_config] (passed
    on to the transports) is left out. *)
Record rconf := {
  r_cur : list addr;                        (* _curr_external_addresses *)
  r_local : list (addr * option addr);      (* _local_mapping *)
  r_mapping : list (addr * option addr);    (* _mapping *)
  r_proxy : list (addr * addr)              (* _proxy_config *)
}.

Definition lookup {V} (d : list (addr * V)) (a : addr) := gget String.eqb d a.

(** [if addr and addr != from_addr] (router.py 261): a value counts unless it is
    missing, empty or the address itself. *)
Definition usable (from : addr) (x : option addr) : option addr :=
  match x with
  | Some a => if String.eqb a "" || String.eqb a from then None else Some a
  | None => None
  end.

(** router.py 239-266 *)
Definition get_proxy (c : rconf) (from : addr) : option addr :=
  match usable from (lookup (r_proxy c) from) with
  | Some a => Some a
  | None =>
      match usable from (lookup (r_proxy c) (host from)) with
      | Some a => Some a
      | None => usable from (lookup (r_proxy c) "*")
      end
  end.

(** router.py 268-285.  The loop has no bound; [fuel] bounds the number of turns
    and [None] means that it has not returned yet.  The result is
    [Some None] for Python's None and [Some (Some l)] for a list. *)
Fixpoint get_proxies_loop (fuel : nat) (c : rconf) (from : addr) (proxies : list addr)
    : option (option (list addr)) :=
  match fuel with
  | 0 => None
  | S f =>
      match get_proxy c from, proxies with
      | None, [] => Some None
      | None, _ => Some (Some proxies)
      | Some p, _ => get_proxies_loop f c p (proxies ++ [p])
      end
  end.
Definition get_proxies (fuel : nat) (c : rconf) (from : addr) := get_proxies_loop fuel c from [].

(** router.py 118-121 *)
Definition external_address (c : rconf) : option addr :=
  match r_cur c with a :: _ => Some a | [] => None end.

(** router.py 123-129: a key of _local_mapping wins even if its value is None. *)
Definition get_internal_address (c : rconf) (ext : addr) : option addr :=
  match lookup (r_local c) ext with
  | Some v => v
  | None => match lookup (r_mapping c) ext with Some v => v | None => None end
  end.

Definition oaddr_eqb (x y : option addr) : bool :=
  match x, y with
  | Some a, Some b => String.eqb a b
  | None, None => true
  | _, _ => false
  end.

(** router.py 156-170: the address that get_client connects to.  [proxies] is
    the argument proxy_addresses ([] for None). *)
Definition resolve (c : rconf) (ext : addr) (proxies : list addr) : addr :=
  match get_internal_address c ext with
  | Some a => a
  | None =>
      match proxies with
      | [] =>
          match get_proxy c ext with
          | Some p => if oaddr_eqb (Some p) (external_address c) then ext else p
          | None => ext
          end
      | _ =>
          let p := last proxies "" in
          match get_proxy c p with Some q => q | None => p end
      end
  end.

(** ** The client cache (one thread) *)

(** A request of get_client: destination, owner, proxies (router.py 131-138).
    The cache key also contains a constant None (line 147). *)
Record key := { k_ext : addr; k_who : option nat; k_proxies : list addr }.

Definition who_eqb (x y : option nat) : bool :=
  match x, y with
  | Some a, Some b => Nat.eqb a b
  | None, None => true
  | _, _ => false
  end.
Fixpoint addrs_eqb (x y : list addr) : bool :=
  match x, y with
  | [], [] => true
  | a :: x', b :: y' => String.eqb a b && addrs_eqb x' y'
  | _, _ => false
  end.
Definition key_eqb (x y : key) : bool :=
  String.eqb (k_ext x) (k_ext y) && who_eqb (k_who x) (k_who y) && addrs_eqb (k_proxies x) (k_proxies y).

(** A client: what it is connected to, and [closed]. *)
Record client := { cl_addr : addr; cl_closed : bool }.

(** A get_client that holds the lock and awaits the connection. *)
Record pend := { p_lock : nat; p_key : key; p_cached : bool; p_addr : addr }.

(** [lock]: number of the current asyncio.Lock (a new one is made whenever
    _cache_local is replaced, router.py 84-100).  The cache belongs to the
    current _cache_local (router.py 76-82). *)
Record state := {
  s_conf : rconf;
  s_lock : nat;
  s_cache : list (key * nat);
  s_clients : list client;
  s_pend : list pend
}.

Inductive event :=
  | Request (lock : nat) (k : key) (cached : bool)  (* a call that has been admitted by this lock *)
  | Connected (i : nat) (ok : bool)                 (* i-th pending connection attempt ends *)
  | Close (c : nat)                                 (* a client is closed, at either end *)
  | Change (conf : rconf).                          (* set_mapping, add_router, remove_router *)

Definition is_closed (cl : list client) (c : nat) : bool :=
  match nth_error cl c with Some x => cl_closed x | None => true end.

Definition set_closed (x : client) : client := {| cl_addr := cl_addr x; cl_closed := true |}.

Fixpoint remove_at {A} (l : list A) (i : nat) : list A :=
  match l, i with
  | [], _ => []
  | _ :: l', 0 => l'
  | x :: l', S i' => x :: remove_at l' i'
  end.
Fixpoint close_at (l : list client) (i : nat) : list client :=
  match l, i with
  | [], _ => []
  | x :: l', 0 => set_closed x :: l'
  | x :: l', S i' => x :: close_at l' i'
  end.

(** router.py 139-176 split at the await of _create_client.  The second
    component is the client returned to the caller in this step, with the key
    and the [cached] flag of the call.  A [Request] on a lock that is held is
    not yet admitted: it does nothing.  Simplified: connecting either gives a
    fresh open client for the address or raises; cached connections of other
    client types (get_client_via_type, 214-237) have their own keys and are
    not modelled. *)
Definition step (s : state) (e : event) : state * option (key * bool * nat) :=
  match e with
  | Request l k cached =>
      if existsb (fun p => Nat.eqb (p_lock p) l) (s_pend s) then (s, None)
      else
        let connect cache :=
          ({| s_conf := s_conf s; s_lock := s_lock s; s_cache := cache; s_clients := s_clients s;
              s_pend := s_pend s ++ [{| p_lock := l; p_key := k; p_cached := cached;
                                        p_addr := resolve (s_conf s) (k_ext k) (k_proxies k) |}] |}, None) in
        match (if cached then gget key_eqb (s_cache s) k else None) with
        | Some c => if is_closed (s_clients s) c then connect (gdel key_eqb (s_cache s) k)
                    else (s, Some (k, cached, c))
        | None => connect (s_cache s)
        end
  | Connected i ok =>
      match nth_error (s_pend s) i with
      | None => (s, None)
      | Some p =>
          let pend' := remove_at (s_pend s) i in
          if ok then
            let c := List.length (s_clients s) in
            ({| s_conf := s_conf s; s_lock := s_lock s;
                s_cache := if p_cached p then gset key_eqb (s_cache s) (p_key p) c else s_cache s;
                s_clients := s_clients s ++ [{| cl_addr := p_addr p; cl_closed := false |}];
                s_pend := pend' |}, Some (p_key p, p_cached p, c))
          else
            ({| s_conf := s_conf s; s_lock := s_lock s; s_cache := s_cache s;
                s_clients := s_clients s; s_pend := pend' |}, None)
      end
  | Close c => ({| s_conf := s_conf s; s_lock := s_lock s; s_cache := s_cache s;
                   s_clients := close_at (s_clients s) c; s_pend := s_pend s |}, None)
  | Change conf => ({| s_conf := conf; s_lock := S (s_lock s); s_cache := [];
                       s_clients := s_clients s; s_pend := s_pend s |}, None)
  end.

Definition init (conf : rconf) : state :=
  {| s_conf := conf; s_lock := 0; s_cache := []; s_clients := []; s_pend := [] |}.
Definition run (s : state) (es : list event) : state := fold_left (fun s e => fst (step s e)) es s.
