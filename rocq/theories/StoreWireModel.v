(** * StoreWireModel: the rendezvous store's bytes

    Models cpp/collective/rendezvous/include/utils.hpp 315-452 ([SYSCHECK],
    [sendBytes], [recvBytes] and the helpers on top of them), and from
    cpp/collective/rendezvous/src/tcp_store.cpp the client's [SendBuffer]
    (1014-1058), the client's calls (1140-1316), the reading half of the server's
    [query] and its handlers (288-326, 373-560), the server's replies, the
    notification of watchers (341-352) and the worker's [callbackHandler]
    (728-755).

    Simplifications:
    - bytes are [ascii]s; a socket is what has been put on it (sending side) or
      what has arrived on it (receiving side);
    - the operating system is a list of answers to the successive [send] or
      [recv] calls, in any order; when the list is used up the call is still
      blocked.  [send] never takes more than it was offered and [recv] never
      delivers more than was asked for, by definition of those calls;
    - a little-endian machine on both ends with 8-byte [size_t] (the code sends
      memory as it is);
    - memory for a declared length can always be allocated;
    - [multiSet] is given as many values as keys (the code asserts it), and the
      [int] loop counters of the multi-key handlers do not overflow. *)
From Coq Require Import Ascii String List Bool Arith NArith ZArith Lia.
From Verif Require Import PyStr.
Import ListNotations.
Open Scope list_scope.
Open Scope nat_scope.

Notation bytes := (list ascii).

(** ** Fixed-width numbers in memory order (utils.hpp 350, 387: the value's bytes) *)
Fixpoint le (k : nat) (n : N) : bytes :=
  match k with O => [] | S k => ascii_of_N (n mod 256) :: le k (n / 256) end.
Fixpoint unle (b : bytes) : N :=
  match b with [] => 0%N | c :: b => (N_of_ascii c + 256 * unle b)%N end.
Definition u64 (n : N) : bytes := le 8 n.
Definition i64 (z : Z) : bytes := le 8 (Z.to_N (z mod 2 ^ 64)).
Definition to_i64 (n : N) : Z :=
  if (Z.of_N n <? 2 ^ 63)%Z then Z.of_N n else (Z.of_N n - 2 ^ 64)%Z.
Definition size (b : bytes) : N := N.of_nat (List.length b).

(** ** What the operating system answers *)
Inductive answer :=
| Moved (k : nat)       (** that many bytes (clipped to what was offered or asked for) *)
| Interrupted           (** -1, EINTR *)
| TryAgain              (** -1, EAGAIN or EWOULDBLOCK: the time-out of the socket *)
| Failed (e : nat).     (** -1, any other errno *)

Inductive fault := Reset | SocketTimeout | SystemError (e : nat) | Unexpected.

(** ** Sending: what is on the wire, the answers to come *)
Inductive sres := Sent | SendFault (f : fault) | SendBlocked.

(** utils.hpp 366-377 with [SYSCHECK] 315-330: one round per answer *)
Fixpoint send_loop (ans : list answer) (todo : bytes) : bytes * list answer * sres :=
  match ans with
  | [] => ([], [], SendBlocked)
  | Interrupted :: ans => send_loop ans todo
  | TryAgain :: ans => ([], ans, SendFault SocketTimeout)
  | Failed e :: ans => ([], ans, SendFault (SystemError e))
  | Moved k :: ans =>
      let now := firstn k todo in
      match now with
      | [] => ([], ans, SendFault Reset)
      | _ =>
          match skipn k todo with
          | [] => (now, ans, Sent)
          | rest => let '(more, ans', r) := send_loop ans rest in (now ++ more, ans', r)
          end
      end
  end.

(** Sending actions: state is the wire so far and the answers to come. *)
Definition W := (bytes * list answer) -> (bytes * list answer) * sres.
Definition wseq (a b : W) : W := fun s => match a s with (s', Sent) => b s' | r => r end.
Definition wnop : W := fun s => (s, Sent).

(** utils.hpp 340-378 *)
Definition sendBytes (b : bytes) : W := fun s =>
  match b with
  | [] => (s, Sent)
  | _ => let '(put, ans, r) := send_loop (snd s) b in ((fst s ++ put, ans), r)
  end.
(** utils.hpp 425-428 *)
Definition sendValue (b : bytes) : W := sendBytes b.
(** utils.hpp 407-412 and 438-443 (the same bytes for vectors and strings) *)
Definition sendVector (b : bytes) : W := wseq (sendBytes (u64 (size b))) (sendBytes b).

(** ** Receiving: what has arrived, the answers to come, what the server has done *)
Notation key := (list ascii).
Notation val := (list ascii).

(** The requests of the protocol (tcp_store.cpp 148-161) *)
Inductive request :=
| Set_ (k : key) (v : val)
| CompareSet (k : key) (expected desired : val)
| Get (k : key)
| Add (k : key) (z : Z)
| Check (ks : list key)
| Wait (ks : list key)
| GetNumKeys
| WatchKey (k : key)
| DeleteKey (k : key)
| Append (k : key) (v : val)
| MultiGet (ks : list key)
| MultiSet (kvs : list (key * val)).

(** What a handler does once it has read what it needs: a whole request, or for
    the multi-key handlers one key after the other, between two reads. *)
Inductive act := Exec (r : request) | SetOne (k : key) (v : val) | GetOne (k : key).

Record rst := mkR { arrived : bytes; answers : list answer; acts : list act }.
Inductive rres (A : Type) := Got (a : A) | RecvFault (f : fault) | RecvBlocked.
Arguments Got {A} _. Arguments RecvFault {A} _. Arguments RecvBlocked {A}.

Definition R (A : Type) := rst -> rst * rres A.
Definition rret {A} (a : A) : R A := fun s => (s, Got a).
Definition rfail {A} (f : fault) : R A := fun s => (s, RecvFault f).
Definition rbind {A B} (m : R A) (f : A -> R B) : R B := fun s =>
  match m s with
  | (s', Got a) => f a s'
  | (s', RecvFault e) => (s', RecvFault e)
  | (s', RecvBlocked) => (s', RecvBlocked)
  end.
Notation "x <- m ;; f" := (rbind m (fun x => f)) (at level 61, m at next level, right associativity).
Definition perform (a : act) : R unit := fun s =>
  (mkR (arrived s) (answers s) (acts s ++ [a]), Got tt).

(** utils.hpp 390-403 with [SYSCHECK]: [need > 0] bytes still missing *)
Fixpoint recv_loop (ans : list answer) (need : nat) (stream : bytes) : bytes * bytes * list answer * rres unit :=
  match ans with
  | [] => ([], stream, [], RecvBlocked)
  | Interrupted :: ans => recv_loop ans need stream
  | TryAgain :: ans => ([], stream, ans, RecvFault SocketTimeout)
  | Failed e :: ans => ([], stream, ans, RecvFault (SystemError e))
  | Moved k :: ans =>
      let now := firstn (Nat.min k need) stream in
      match now with
      | [] => ([], stream, ans, RecvFault Reset)
      | _ =>
          let stream' := skipn (List.length now) stream in
          match need - List.length now with
          | O => (now, stream', ans, Got tt)
          | need' => let '(more, s, a, r) := recv_loop ans need' stream' in (now ++ more, s, a, r)
          end
      end
  end.

(** utils.hpp 380-404 *)
Definition recvBytes (n : nat) : R bytes := fun s =>
  match n with
  | O => (s, Got [])
  | _ =>
      match recv_loop (answers s) n (arrived s) with
      | (b, st, an, Got _) => (mkR st an (acts s), Got b)
      | (_, st, an, RecvFault f) => (mkR st an (acts s), RecvFault f)
      | (_, st, an, RecvBlocked) => (mkR st an (acts s), RecvBlocked)
      end
  end.
(** utils.hpp 430-435 at the types used *)
Definition recvByte : R N := b <- recvBytes 1 ;; rret (unle b).
Definition recvU64 : R N := b <- recvBytes 8 ;; rret (unle b).
Definition recvI64 : R Z := b <- recvBytes 8 ;; rret (to_i64 (unle b)).
(** utils.hpp 415-422 *)
Definition recvVector : R bytes := n <- recvU64 ;; recvBytes (N.to_nat n).
(** utils.hpp 446-452 *)
Definition recvString : R bytes := n <- recvU64 ;; recvBytes (N.to_nat n).

(** ** The client's [SendBuffer] (tcp_store.cpp 1014-1058) *)
Record sb := mkSB { buffer : bytes; wire : bytes; sanswers : list answer }.
Definition S_ := sb -> sb * sres.
Definition sseq (a b : S_) : S_ := fun s => match a s with (s', Sent) => b s' | r => r end.
Notation "a ;> b" := (sseq a b) (at level 62, right associativity).
Definition snop : S_ := fun s => (s, Sent).
Definition FLUSH_WATERMARK : nat := 1440.
(** Lines 1052-1057; [sendRaw] is lines 916-918 *)
Definition flush : S_ := fun s =>
  match buffer s with
  | [] => (s, Sent)
  | b => match sendBytes b (wire s, sanswers s) with
         | ((w, a), Sent) => (mkSB [] w a, Sent)
         | ((w, a), r) => (mkSB b w a, r)
         end
  end.
(** Lines 1020-1024 *)
Definition maybeFlush : S_ := fun s =>
  if FLUSH_WATERMARK <=? List.length (buffer s) then flush s else (s, Sent).
Definition insert (b : bytes) : S_ := fun s => (mkSB (buffer s ++ b) (wire s) (sanswers s), Sent).
(** Lines 1045-1050 *)
Definition appendValue (b : bytes) : S_ := insert b ;> maybeFlush.
(** Lines 1033-1037 *)
Definition appendString (b : bytes) : S_ := appendValue (u64 (size b)) ;> insert b ;> maybeFlush.
(** Lines 1039-1043 *)
Definition appendBytes (b : bytes) : S_ := appendValue (u64 (size b)) ;> insert b ;> maybeFlush.
(** [for (const std::string &key : keys) buffer.appendString(key)] *)
Fixpoint appendStrings (ks : list key) : S_ :=
  match ks with [] => snop | k :: ks => appendString k ;> appendStrings ks end.
(** Lines 1311-1314 *)
Fixpoint appendPairs (kvs : list (key * val)) : S_ :=
  match kvs with [] => snop | (k, v) :: kvs => appendString k ;> appendBytes v ;> appendPairs kvs end.
Definition count {A} (l : list A) : N := N.of_nat (List.length l).

(** tcp_store.cpp 148-161 *)
Definition query_type (r : request) : N :=
  match r with
  | Set_ _ _ => 0 | CompareSet _ _ _ => 1 | Get _ => 2 | Add _ _ => 3 | Check _ => 4 | Wait _ => 5
  | GetNumKeys => 6 | WatchKey _ => 7 | DeleteKey _ => 8 | Append _ _ => 9 | MultiGet _ => 10
  | MultiSet _ => 11
  end%N.

(** What each call appends between the constructor (lines 1027-1031) and the
    last [flush]: lines 1140-1147, 1150-1161, 1168-1177, 1184-1192, 1199-1206,
    1208-1214, 1216-1234, 1252-1268, 1270-1277, 1280-1302, 1304-1316 *)
Definition append_request (r : request) : S_ :=
  match r with
  | Set_ k v => appendString k ;> appendBytes v
  | CompareSet k e d => appendString k ;> appendBytes e ;> appendBytes d
  | Get k => appendString k
  | Add k z => appendString k ;> appendValue (i64 z)
  | Check ks => appendValue (u64 (count ks)) ;> appendStrings ks
  | Wait ks => appendValue (u64 (count ks)) ;> appendStrings ks
  | GetNumKeys => snop
  | WatchKey k => snop
  | DeleteKey k => appendString k
  | Append k v => appendString k ;> appendBytes v
  | MultiGet ks => appendValue (u64 (count ks)) ;> appendStrings ks
  | MultiSet kvs => appendValue (i64 (Z.of_nat (List.length kvs))) ;> appendPairs kvs
  end.
(** A whole call's sending half: what reached the wire, and how it ended.  [WatchKey]
    does not use a buffer: lines 1001-1012. *)
Definition client_send (r : request) (ans : list answer) : bytes * sres :=
  match r with
  | WatchKey k =>
      let '((w, _), res) := wseq (sendValue (le 1 (query_type r))) (sendVector k) ([], ans) in (w, res)
  | _ =>
      let '(s, res) := (append_request r ;> flush) (mkSB (le 1 (query_type r)) [] ans) in (wire s, res)
  end.

(** ** The server reads a request (lines 288-326) *)
Fixpoint recvStrings (n : nat) : R (list key) :=
  match n with O => rret [] | S n => k <- recvString ;; ks <- recvStrings n ;; rret (k :: ks) end.
(** Lines 541-549 *)
Fixpoint multiGetLoop (n : nat) : R unit :=
  match n with O => rret tt | S n => k <- recvString ;; _ <- perform (GetOne k) ;; multiGetLoop n end.
(** Lines 551-560 *)
Fixpoint multiSetLoop (n : nat) : R unit :=
  match n with
  | O => rret tt
  | S n => k <- recvString ;; v <- recvVector ;; _ <- perform (SetOne k v) ;; multiSetLoop n
  end.
Definition handler (qt : N) : R unit :=
  match qt with
  | 0 => k <- recvString ;; v <- recvVector ;; perform (Exec (Set_ k v))
  | 1 => k <- recvString ;; e <- recvVector ;; d <- recvVector ;; perform (Exec (CompareSet k e d))
  | 3 => k <- recvString ;; z <- recvI64 ;; perform (Exec (Add k z))
  | 2 => k <- recvString ;; perform (Exec (Get k))
  | 4 => n <- recvU64 ;; ks <- recvStrings (N.to_nat n) ;; perform (Exec (Check ks))
  | 5 => n <- recvU64 ;; ks <- recvStrings (N.to_nat n) ;; perform (Exec (Wait ks))
  | 6 => perform (Exec GetNumKeys)
  | 8 => k <- recvString ;; perform (Exec (DeleteKey k))
  | 7 => k <- recvString ;; perform (Exec (WatchKey k))
  | 9 => k <- recvString ;; v <- recvVector ;; perform (Exec (Append k v))
  | 10 => n <- recvU64 ;; multiGetLoop (N.to_nat n)
  | 11 => n <- recvU64 ;; multiSetLoop (N.to_nat n)
  | _ => rfail Unexpected
  end%N.
Definition query : R unit := qt <- recvByte ;; handler qt.

(** ** Replies *)
Inductive reply :=
| RBytes (v : val)             (** compareSet 392, 397, 407; get 443 *)
| RInt (z : Z)                 (** add 430, getNumKeys 447, delete 461 *)
| RReady (b : bool)            (** check 475-480 *)
| RStop                        (** wait 494 or, later, 333 *)
| RList (vs : list val).       (** multiGet 547 *)

Fixpoint sendVectors (vs : list val) : W :=
  match vs with [] => wnop | v :: vs => wseq (sendVector v) (sendVectors vs) end.
Definition server_send (a : reply) : W :=
  match a with
  | RBytes v => sendVector v
  | RInt z => sendValue (i64 z)
  | RReady b => sendValue (le 1 (if b then 0 else 1))
  | RStop => sendValue (le 1 0)
  | RList vs => sendVectors vs
  end.

Fixpoint recvVectors (n : nat) : R (list val) :=
  match n with O => rret [] | S n => v <- recvVector ;; vs <- recvVectors n ;; rret (v :: vs) end.
(** What each call reads after its [flush], [None] when it reads nothing *)
Definition client_recv (r : request) : option (R reply) :=
  match r with
  | Set_ _ _ | Append _ _ | MultiSet _ | WatchKey _ => None
  | CompareSet _ _ _ | Get _ => Some (v <- recvVector ;; rret (RBytes v))
  | Add _ _ | GetNumKeys | DeleteKey _ => Some (z <- recvI64 ;; rret (RInt z))
  | Check _ => Some (b <- recvByte ;;
      (* lines 1226-1233 *)
      if (b =? 0)%N then rret (RReady true) else if (b =? 1)%N then rret (RReady false) else rfail Unexpected)
  | Wait _ => Some (b <- recvByte ;;
      (* lines 1264-1267 *)
      if (b =? 0)%N then rret RStop else rfail Unexpected)
  | MultiGet ks => Some (vs <- recvVectors (List.length ks) ;; rret (RList vs))
  end.

(** ** Notifications (lines 341-352, 509-518, 728-755) *)
Inductive change := KeyUpdated | KeyCreated | KeyDeleted | KeyAppended.
(** tcp_store.cpp 167-173 *)
Definition change_byte (c : change) : N :=
  match c with KeyUpdated => 0 | KeyCreated => 1 | KeyDeleted => 2 | KeyAppended => 4 end%N.
Inductive note := Registered | Changed (c : change) (k : key) (old new : val).
Definition notify (m : note) : W :=
  match m with
  | Registered => sendValue (le 1 3)
  | Changed c k o n => wseq (sendValue (le 1 (change_byte c))) (wseq (sendVector k) (wseq (sendVector o) (sendVector n)))
  end.
(** What the worker does with a message: unblock [watchKey], or call the key's
    callback with the two optional values. *)
Inductive event := Unblock | Callback (k : key) (old new : option val).
Definition callbackHandler : R event :=
  t <- recvByte ;;
  if (t =? 3)%N then rret Unblock else
  k <- recvString ;; o <- recvVector ;; n <- recvVector ;;
  rret (Callback k (if (t =? 1)%N then None else Some o) (if (t =? 2)%N then None else Some n)).

(** ** Keys as the public calls send them (tcp_store.hpp 147-148) *)
Definition keyPrefix (k : key) : key := lit "/" ++ k.
Definition initKey : key := lit "init/".
Definition map_keys (f : key -> key) (r : request) : request :=
  match r with
  | Set_ k v => Set_ (f k) v
  | CompareSet k e d => CompareSet (f k) e d
  | Get k => Get (f k)
  | Add k z => Add (f k) z
  | Check ks => Check (map f ks)
  | Wait ks => Wait (map f ks)
  | GetNumKeys => GetNumKeys
  | WatchKey k => WatchKey (f k)
  | DeleteKey k => DeleteKey (f k)
  | Append k v => Append (f k) v
  | MultiGet ks => MultiGet (map f ks)
  | MultiSet kvs => MultiSet (map (fun p => (f (fst p), snd p)) kvs)
  end.
