(** * StoreModel: the rendezvous store's server (TCPStoreMasterDaemon)

    Models the single-threaded server of
    /repo/cpp/collective/rendezvous/src/tcp_store.cpp: the request handlers
    (lines 288-567), the waiting and watching tables, and the cleaning up after
    an exception (queryFds, lines 230-281).

    Simplifications.
    - A request is received whole; the poll loop (run, 600-672) is the choice of
      the next event: any order of the ready connections is possible.
    - Keys are natural numbers standing for strings, connections are the numbers
      of their file descriptors; a descriptor number may be reused after it is
      closed, as the operating system does.
    - Messages are sent atomically.  For every event the environment fixes the
      set [dead] of connections on which [send] fails (peer gone); [send] also
      fails on a descriptor that is not open (EBADF).
    - [unordered_map::operator[]] inserting an empty list (line 347) is not
      distinguished from an absent entry.
    - [int64_t] arithmetic wraps around (in C++ signed overflow is undefined);
      [size_t] wraps around. *)
From Coq Require Import List Bool Arith ZArith Ascii.
From Verif Require Import Dict PyStr SizeModel.
Import ListNotations.
Open Scope list_scope.

Definition key := nat.
Definition sock := nat.
Definition val := text.

(** ** Numbers as text *)
Definition digit_of (z : Z) : ascii := ascii_of_nat (Z.to_nat (48 + z)).
Fixpoint udigits (fuel : nat) (z : Z) (acc : text) : text :=
  match fuel with
  | O => acc
  | S f => let acc := digit_of (z mod 10) :: acc in
           if (z <? 10)%Z then acc else udigits f (z / 10) acc
  end.
(** [std::to_string] of an int64 (line 424) *)
Definition to_string (z : Z) : text :=
  let u := Z.abs z in
  let d := udigits (S (Z.to_nat (Z.log2 u))) u [] in
  if (z <? 0)%Z then "-"%char :: d else d.

(** C [isspace] *)
Definition c_space (c : ascii) : bool :=
  let n := nat_of_ascii c in ((n =? 32) || ((9 <=? n) && (n <=? 13)))%nat.
Fixpoint skip_space (s : text) : text :=
  match s with c :: s' => if c_space c then skip_space s' else s | [] => [] end.

Definition INT64_MIN : Z := - 2 ^ 63.
Definition INT64_MAX : Z := 2 ^ 63 - 1.
Definition in_int64 (z : Z) : bool := (INT64_MIN <=? z)%Z && (z <=? INT64_MAX)%Z.
Definition wrap64 (z : Z) : Z := ((z + 2 ^ 63) mod 2 ^ 64 - 2 ^ 63)%Z.

(** [std::stoll] (line 421): spaces, a sign, digits; the rest is ignored.
    [None]: it throws (no digit, or out of range). *)
Definition stoll (s : text) : option Z :=
  let s := skip_space s in
  let '(sg, s) := match s with
                  | c :: s' => if Ascii.eqb c "-" then ((-1)%Z, s') else if Ascii.eqb c "+" then (1%Z, s') else (1%Z, s)
                  | [] => (1%Z, s)
                  end in
  let d := fst (span isdigit s) in
  match d with
  | [] => None
  | _ => let z := (sg * dec d)%Z in if in_int64 z then Some z else None
  end.

(** ** Requests and messages *)
Inductive request :=
| Set_ (k : key) (v : val)
| CompareSet (k : key) (expected desired : val)
| Get (k : key)
| Add (k : key) (z : Z)
| Check (ks : list key)
| Wait (ks : list key)
| GetNumKeys
| WatchKey (k : key)
| DeleteKey (k : key)
| Append (k : key) (v : val)
| MultiGet (ks : list key)
| MultiSet (kvs : list (key * val)).

(** Lines 162-170 *)
Inductive change := KeyUpdated | KeyCreated | KeyDeleted | KeyAppended.

Inductive msg :=
| MStop                                        (* STOP_WAITING *)
| MCheck (ready : bool)                        (* READY / NOT_READY *)
| MValue (z : Z)
| MBytes (v : val)
| MWatch (t : change) (k : key) (old new : val)
| MRegistered.                                 (* KEY_CALLBACK_REGISTERED *)

(** ** State (lines 211-218) *)
Record st := mkSt {
  store : list (key * val);            (* tcpStore_ *)
  waiting : list (key * list sock);    (* waitingSockets_ *)
  awaited : list (sock * Z);           (* keysAwaited_ *)
  watched : list (key * list sock);    (* watchedSockets_ *)
  opened : list sock }.                (* sockets_ *)

Definition find {V} (d : list (nat * V)) (k : nat) : option V := gget Nat.eqb d k.
Definition put {V} (d : list (nat * V)) (k : nat) (v : V) := gset Nat.eqb d k v.
Definition erase {V} (d : list (nat * V)) (k : nat) := gdel Nat.eqb d k.
Definition has (l : list nat) (x : nat) : bool := existsb (Nat.eqb x) l.

(** How a handler ends: normally, with an exception of its own, or with a failed send. *)
Inductive status := Done | Refused | SendFailed.

(** A handler: state and messages sent so far (newest first). *)
Definition world := (st * list (sock * msg))%type.
Definition M := world -> world * status.
Definition ret : M := fun w => (w, Done).
Definition refuse : M := fun w => (w, Refused).
Definition seq (a b : M) : M := fun w => match a w with (w', Done) => b w' | r => r end.
Notation "a ;; b" := (seq a b) (at level 60, right associativity).
Definition upd (f : st -> st) : M := fun w => ((f (fst w), snd w), Done).
Definition with_st (f : st -> M) : M := fun w => f (fst w) w.

Definition set_store (f : list (key * val) -> list (key * val)) (s : st) :=
  mkSt (f (store s)) (waiting s) (awaited s) (watched s) (opened s).
Definition set_waiting f (s : st) := mkSt (store s) (f (waiting s)) (awaited s) (watched s) (opened s).
Definition set_awaited f (s : st) := mkSt (store s) (waiting s) (f (awaited s)) (watched s) (opened s).
Definition set_watched f (s : st) := mkSt (store s) (waiting s) (awaited s) (f (watched s)) (opened s).
Definition set_opened f (s : st) := mkSt (store s) (waiting s) (awaited s) (watched s) (f (opened s)).

(** include/utils.hpp 341-378: [send] on one socket *)
Definition send (dead : list sock) (c : sock) (m : msg) : M := fun w =>
  if has (opened (fst w)) c && negb (has dead c) then ((fst w, (c, m) :: snd w), Done) else (w, SendFailed).

(** [--keysAwaited_[socket]] on a [size_t], line 332 *)
Definition get_awaited (s : st) (c : sock) : Z := match find (awaited s) c with Some z => z | None => 0 end.
Definition decr (z : Z) : Z := if (z =? 0)%Z then (2 ^ 64 - 1)%Z else (z - 1)%Z.

(** Lines 331-336, the loop over the waiting sockets *)
Fixpoint wake_loop (dead : list sock) (socks : list sock) : M :=
  match socks with
  | [] => ret
  | c :: socks =>
      with_st (fun s =>
        let n := decr (get_awaited s c) in
        upd (set_awaited (fun d => put d c n)) ;;
        (if (n =? 0)%Z then send dead c MStop else ret) ;;
        wake_loop dead socks)
  end.

(** Lines 328-339 *)
Definition wakeup (dead : list sock) (k : key) : M :=
  with_st (fun s =>
    match find (waiting s) k with
    | None => ret
    | Some socks => wake_loop dead socks ;; upd (set_waiting (fun d => erase d k))
    end).

(** Lines 341-352 *)
Definition watchers (s : st) (k : key) : list sock := match find (watched s) k with Some l => l | None => [] end.
Fixpoint notify_loop (dead : list sock) (socks : list sock) (m : msg) : M :=
  match socks with [] => ret | c :: socks => send dead c m ;; notify_loop dead socks m end.
Definition notify (dead : list sock) (k : key) (t : change) (old new : val) : M :=
  with_st (fun s => notify_loop dead (watchers s k) (MWatch t k old new)).

(** Lines 354-372 *)
Definition do_set (dead : list sock) (k : key) (v : val) : M :=
  with_st (fun s =>
    let old := find (store s) k in
    upd (set_store (fun d => put d k v)) ;;
    wakeup dead k ;;
    match old with
    | None => notify dead k KeyCreated [] v
    | Some o => notify dead k KeyUpdated o v
    end).

(** Lines 379-409.  No waiting client is woken here. *)
Definition compare_set (dead : list sock) (c : sock) (k : key) (expected desired : val) : M :=
  with_st (fun s =>
    match find (store s) k with
    | None =>
        match expected with
        | [] => upd (set_store (fun d => put d k desired)) ;;
                notify dead k KeyCreated expected desired ;;
                send dead c (MBytes desired)
        | _ => send dead c (MBytes expected)
        end
    | Some x =>
        if text_eqb x expected then
          upd (set_store (fun d => put d k desired)) ;;
          notify dead k KeyUpdated expected desired ;;
          send dead c (MBytes desired)
        else send dead c (MBytes x)
    end).

(** Lines 411-438 *)
Definition add (dead : list sock) (c : sock) (k : key) (z : Z) : M :=
  with_st (fun s =>
    let cont (n : Z) (old : option val) :=
      let v := to_string n in
      upd (set_store (fun d => put d k v)) ;;
      send dead c (MValue n) ;;
      wakeup dead k ;;
      match old with
      | None => notify dead k KeyCreated [] v
      | Some o => notify dead k KeyUpdated o v
      end in
    match find (store s) k with
    | None => cont z None
    | Some o => match stoll o with
                | None => refuse
                | Some y => cont (wrap64 (z + y)) (Some o)
                end
    end).

(** Lines 440-444: [at] throws when the key is missing *)
Definition get (dead : list sock) (c : sock) (k : key) : M :=
  with_st (fun s => match find (store s) k with None => refuse | Some v => send dead c (MBytes v) end).

(** Lines 562-567 *)
Definition check_keys (s : st) (ks : list key) : bool :=
  forallb (fun k => match find (store s) k with Some _ => true | None => false end) ks.

(** Lines 450-462 *)
Definition delete (dead : list sock) (c : sock) (k : key) : M :=
  with_st (fun s =>
    match find (store s) k with
    | Some old => notify dead k KeyDeleted old [] ;;
                  upd (set_store (fun d => erase d k)) ;; send dead c (MValue 1)
    | None => send dead c (MValue 0)
    end).

(** Lines 483-508 *)
Fixpoint enlist (c : sock) (ks : list key) (n : Z) (s : st) : st * Z :=
  match ks with
  | [] => (s, n)
  | k :: ks =>
      match find (store s) k with
      | Some _ => enlist c ks n s
      | None =>
          let l := match find (waiting s) k with Some l => l | None => [] end in
          enlist c ks (n + 1)%Z (set_waiting (fun d => put d k (l ++ [c])) s)
      end
  end.
Definition wait (dead : list sock) (c : sock) (ks : list key) : M :=
  with_st (fun s =>
    if check_keys s ks then send dead c MStop
    else upd (fun s => let (s', n) := enlist c ks 0 s in set_awaited (fun d => put d c n) s')).

(** Lines 510-518 *)
Definition watch (dead : list sock) (c : sock) (k : key) : M :=
  with_st (fun s =>
    upd (set_watched (fun d => put d k (watchers s k ++ [c]))) ;; send dead c MRegistered).

(** Lines 520-539 *)
Definition append (dead : list sock) (k : key) (v : val) : M :=
  with_st (fun s =>
    match find (store s) k with
    | Some o => upd (set_store (fun d => put d k (o ++ v))) ;; wakeup dead k ;; notify dead k KeyAppended [] v
    | None => upd (set_store (fun d => put d k v)) ;; wakeup dead k ;; notify dead k KeyCreated [] v
    end).

(** Lines 541-549 *)
Fixpoint multi_get (dead : list sock) (c : sock) (ks : list key) : M :=
  match ks with
  | [] => ret
  | k :: ks => get dead c k ;; multi_get dead c ks
  end.

(** Lines 551-560 *)
Fixpoint multi_set (dead : list sock) (kvs : list (key * val)) : M :=
  match kvs with
  | [] => ret
  | (k, v) :: kvs => do_set dead k v ;; multi_set dead kvs
  end.

(** Lines 288-326 *)
Definition handle (dead : list sock) (c : sock) (r : request) : M :=
  match r with
  | Set_ k v => do_set dead k v
  | CompareSet k e d => compare_set dead c k e d
  | Get k => get dead c k
  | Add k z => add dead c k z
  | Check ks => with_st (fun s => send dead c (MCheck (check_keys s ks)))
  | Wait ks => wait dead c ks
  | GetNumKeys => with_st (fun s => send dead c (MValue (Z.of_nat (length (store s)))))
  | WatchKey k => watch dead c k
  | DeleteKey k => delete dead c k
  | Append k v => append dead k v
  | MultiGet ks => multi_get dead c ks
  | MultiSet kvs => multi_set dead kvs
  end.

(** Lines 252-278: after an exception the requester's entries in the tables of
    waiting clients are removed and its connection is closed.  (The table of
    watching clients is not touched.) *)
Definition remove_sock (c : sock) (l : list sock) : list sock := filter (fun x => negb (Nat.eqb x c)) l.
Definition drop_waiting (c : sock) (d : list (key * list sock)) : list (key * list sock) :=
  filter (fun kl => match snd kl with [] => false | _ => true end) (map (fun kl => (fst kl, remove_sock c (snd kl))) d).
Definition close (c : sock) (s : st) : st :=
  mkSt (store s) (drop_waiting c (waiting s)) (erase (awaited s) c) (watched s) (remove_sock c (opened s)).

(** ** Events and histories *)
Inductive event :=
| Connect (c : sock)
| Hangup (c : sock)                 (* the server reads end-of-file *)
| Request (c : sock) (r : request) (dead : list sock).

(** What is visible of an event: how the request ended and what was sent, oldest first. *)
Record entry := mkEntry { ev : event; res : status; sent : list (sock * msg) }.

Definition step (s : st) (e : event) : st * entry :=
  match e with
  | Connect c => (set_opened (fun l => c :: l) s, mkEntry e Done [])
  | Hangup c => (close c s, mkEntry e Done [])
  | Request c r dead =>
      match handle dead c r (s, []) with
      | ((s', o), Done) => (s', mkEntry e Done (rev o))
      | ((s', o), x) => (close c s', mkEntry e x (rev o))
      end
  end.

(** Events that can happen: descriptors are given to one connection at a time. *)
Definition possible (s : st) (e : event) : Prop :=
  match e with
  | Connect c => ~ In c (opened s)
  | Hangup c => In c (opened s)
  | Request c _ _ => In c (opened s)
  end.

Definition init : st := mkSt [] [] [] [] [].

(** All histories (newest first). *)
Inductive reach : st -> list entry -> Prop :=
| r0 : reach init []
| r1 s h e s' x : reach s h -> possible s e -> step s e = (s', x) -> reach s' (x :: h).
