(** The messages between pools and clients and their wire form.
    Source: /repo/python/xoscar/backends/message.pyx (line numbers below);
    ActorRef: /repo/python/xoscar/core.pyx 112-122.

    A serialized message is a tuple of header fields and a list of
    sub-components.  Both travel through xoscar.serialization (SerModel, C01) and
    the framing (FramingModel, C04), which return them unchanged (MessageWireProps composes
    all of this); here they are lists of Python values.

    Simplified: [VObj n] is any Python object the message code only passes on
    (contents, errors, tracebacks, classes, dicts ...); typed cdef attributes
    ([str], [bytes], [list], [type], [tuple], [dict]) accept None or a value of
    their type, as in Cython, anything else is a TypeError ([Fail]).  [protocol]
    and [pid] are C integers; their overflow is not modelled. *)
From Coq Require Import List Arith Bool ZArith String.
Import ListNotations.
Open Scope list_scope.

Inductive val :=
| VNone | VInt (z : Z) | VStr (s : string) | VBytes (b : list nat)
| VList (l : list val) | VTuple (l : list val) | VType (n : nat) | VDict (n : nat) | VObj (n : nat).

Inductive err := TypeError | IndexError | KeyError | AttributeError | AssertionError.
Inductive res (A : Type) := Ok (a : A) | Fail (e : err).
Arguments Ok {A} _. Arguments Fail {A} _.
Definition bind {A B} (r : res A) (f : A -> res B) : res B :=
  match r with Ok a => f a | Fail e => Fail e end.
Notation "x <- r ; k" := (bind r (fun x => k)) (at level 61, r at next level, right associativity).

(** *** Typed attributes of cdef classes: reading and assigning *)
Definition of_bytes (b : option (list nat)) : val := match b with Some b => VBytes b | None => VNone end.
Definition to_bytes (v : val) : res (option (list nat)) :=
  match v with VBytes b => Ok (Some b) | VNone => Ok None | _ => Fail TypeError end.
Definition of_str (s : option string) : val := match s with Some s => VStr s | None => VNone end.
Definition to_str (v : val) : res (option string) :=
  match v with VStr s => Ok (Some s) | VNone => Ok None | _ => Fail TypeError end.
Definition of_list (l : option (list val)) : val := match l with Some l => VList l | None => VNone end.
Definition to_list (v : val) : res (option (list val)) :=
  match v with VList l => Ok (Some l) | VNone => Ok None | _ => Fail TypeError end.
Definition of_tuple (l : option (list val)) : val := match l with Some l => VTuple l | None => VNone end.
Definition to_tuple (v : val) : res (option (list val)) :=
  match v with VTuple l => Ok (Some l) | VNone => Ok None | _ => Fail TypeError end.
Definition of_type (t : option nat) : val := match t with Some t => VType t | None => VNone end.
Definition to_type (v : val) : res (option nat) :=
  match v with VType t => Ok (Some t) | VNone => Ok None | _ => Fail TypeError end.
Definition of_dict (t : option nat) : val := match t with Some t => VDict t | None => VNone end.
Definition to_dict (v : val) : res (option nat) :=
  match v with VDict t => Ok (Some t) | VNone => Ok None | _ => Fail TypeError end.
Definition to_int (v : val) : res Z := match v with VInt z => Ok z | _ => Fail TypeError end.

(** Python indexing [t[i]] and [t[-k]], slices [t[:k]] and [t[k:]]. *)
Definition at_ (t : list val) (i : nat) : res val :=
  match nth_error t i with Some v => Ok v | None => Fail IndexError end.
Definition neg (t : list val) (k : nat) : res val :=
  if k <=? List.length t then at_ t (List.length t - k) else Fail IndexError.

(** *** References, core.pyx 112-122; [r_local]: the subclass LocalActorRef. *)
Record aref := { r_addr : option string; r_uid : val; r_proxies : option (list val); r_local : bool }.

(** core.pyx 116-122, the constructor: a uid of type str is encoded.  [encode]
    is str.encode. *)
Definition encode (s : string) : list nat := List.map Ascii.nat_of_ascii (list_ascii_of_string s).
Definition norm_uid (u : val) : val := match u with VStr s => VBytes (encode s) | _ => u end.
Definition new_ref (addr uid proxies : val) : res aref :=
  a <- to_str addr; p <- to_list proxies;
  Ok {| r_addr := a; r_uid := norm_uid uid; r_proxies := p; r_local := false |}.

(** *** The message classes *)

(** _MessageBase, 74-101 *)
Record base := { b_id : option (list nat); b_protocol : Z; b_trace : option (list val); b_prof : val }.

(** The attributes of the subclasses: 134-140, 174-178, 212-220, 279-288, 330-335,
    365-369, 395-399, 425-430 (SendMessage; TellMessage 465-466 is a subclass),
    469-474, 503-507 (CopyToBuffersMessage; CopyToFileObjectsMessage 534-535),
    538-543. *)
Inductive msg :=
| Control (b : base) (address : option string) (ctype : val) (content : val)
| Result (b : base) (result : val)
| Error (b : base) (address : option string) (pid : Z) (etype : option nat) (error traceback : val)
| CreateActor (b : base) (cls : option nat) (actor_id : option (list nat))
    (args : option (list val)) (kwargs : option nat) (strategy from_main : val)
| DestroyActor (b : base) (ref : option aref) (from_main : val)
| HasActor (b : base) (ref : option aref)
| ActorRef_ (b : base) (ref : option aref)
| Send (b : base) (ref : option aref) (content : val)
| Tell (b : base) (ref : option aref) (content : val)
| Cancel (b : base) (address : option string) (cancel_id : option (list nat))
| CopyToBuffers (b : base) (content : val)
| CopyToFileObjects (b : base) (content : val)
| Forward (b : base) (address : option string) (raw : option msg).

Definition base_of (m : msg) : base :=
  match m with
  | Control b _ _ _ | Result b _ | Error b _ _ _ _ _ | CreateActor b _ _ _ _ _ _
  | DestroyActor b _ _ | HasActor b _ | ActorRef_ b _ | Send b _ _ | Tell b _ _
  | Cancel b _ _ | CopyToBuffers b _ | CopyToFileObjects b _ | Forward b _ _ => b
  end.

(** MessageType, 37-50 and the class attribute message_type *)
Definition type_of (m : msg) : Z :=
  match m with
  | Control _ _ _ _ => 0 | Result _ _ => 1 | Error _ _ _ _ _ _ => 2
  | CreateActor _ _ _ _ _ _ _ => 3 | DestroyActor _ _ _ => 4 | HasActor _ _ => 5
  | ActorRef_ _ _ => 6 | Send _ _ _ => 7 | Tell _ _ _ => 8 | Cancel _ _ _ => 9
  | CopyToBuffers _ _ => 10 | CopyToFileObjects _ _ => 11 | Forward _ _ _ => 12
  end%Z.

(** *** Serializing *)

(** _MessageBase.serial, 103-113; [tp] is self.message_type.value *)
Definition base_serial (tp : Z) (b : base) : list val :=
  [VInt tp; of_bytes (b_id b); VInt (b_protocol b); of_list (b_trace b); b_prof b].

(** self.actor_ref.address, .uid, .proxy_addresses (353-356 etc.): None has no
    such attributes *)
Definition ref_fields (r : option aref) : res (list val) :=
  match r with
  | Some r => Ok [of_str (r_addr r); r_uid r; of_list (r_proxies r)]
  | None => Fail AttributeError
  end.

(** The [serial] methods: 158-165, 197-200, 264-268, 312-318, 351-357, 383-388,
    413-418, 451-457, 490-495, 524-527, 562-568.  A Forward's raw message that
    is None is an AttributeError here (in Cython a crash of the process). *)
Fixpoint serial_members (m : msg) : res (list val * list val) :=
  let hd := base_serial (type_of m) (base_of m) in
  match m with
  | Control _ a t c => Ok (hd ++ [of_str a; t], [c])
  | Result _ r => Ok (hd, [r])
  | Error _ a pid t e tb => Ok (hd ++ [of_str a; VInt pid], [of_type t; e; tb])
  | CreateActor _ c i args kw s f =>
      Ok (hd ++ [of_bytes i; s; f], [of_type c; of_tuple args; of_dict kw])
  | DestroyActor _ r f => fs <- ref_fields r; Ok (hd ++ (fs ++ [f]), [])
  | HasActor _ r => fs <- ref_fields r; Ok (hd ++ fs, [])
  | ActorRef_ _ r => fs <- ref_fields r; Ok (hd ++ fs, [])
  | Send _ r c => fs <- ref_fields r; Ok (hd ++ fs, [c])
  | Tell _ r c => fs <- ref_fields r; Ok (hd ++ fs, [c])
  | Cancel _ a i => Ok (hd ++ [of_str a; of_bytes i], [])
  | CopyToBuffers _ c => Ok (hd, [c])
  | CopyToFileObjects _ c => Ok (hd, [c])
  | Forward _ a (Some raw) =>
      rs <- serial_members raw;
      Ok ((hd ++ [of_str a]) ++ fst rs, [] ++ snd rs)
  | Forward _ _ None => Fail AttributeError
  end.

(** MessageSerializer.serial, 610-616 *)
Definition serial (m : msg) : res (list val * list val) :=
  if (b_protocol (base_of m) =? 0)%Z then serial_members m else Fail AssertionError.

(** *** Deserializing *)

(** _MessageBase.deserial_members, 115-119 *)
Definition base_deserial (t : list val) : res base :=
  i <- at_ t 1; i <- to_bytes i;
  p <- at_ t 2; p <- to_int p;
  tr <- at_ t 3; tr <- to_list tr;
  pc <- at_ t 4;
  Ok {| b_id := i; b_protocol := p; b_trace := tr; b_prof := pc |}.

(** ActorRef(serialized[-k], serialized[-k+1], serialized[-k+2]) *)
Definition ref_at (t : list val) (k : nat) : res aref :=
  a <- neg t k; u <- neg t (k - 1); p <- neg t (k - 2); new_ref a u p.

(** The [deserial_members] methods (167-171, 202-204, 270-276, 320-327, 359-362,
    390-392, 420-422, 459-462, 497-500, 529-531, 570-579) of the class found for
    a type in _message_type_to_message_cls (582-596).  The recursion of nested
    forwards is on [fuel]; [deserial] gives it the length of the tuple, which
    nested forwards shorten. *)
Fixpoint deserial_members (fuel : nat) (tp : val) (t subs : list val) : res msg :=
  match tp with
  | VInt 0 =>
      b <- base_deserial t; a <- neg t 2; a <- to_str a; ct <- neg t 1; c <- at_ subs 0;
      Ok (Control b a ct c)
  | VInt 1 => b <- base_deserial t; r <- at_ subs 0; Ok (Result b r)
  | VInt 2 =>
      b <- base_deserial t; a <- neg t 2; a <- to_str a; p <- neg t 1; p <- to_int p;
      et <- at_ subs 0; et <- to_type et; e <- at_ subs 1; tb <- at_ subs 2;
      Ok (Error b a p et e tb)
  | VInt 3 =>
      b <- base_deserial t; i <- neg t 3; i <- to_bytes i; s <- neg t 2; f <- neg t 1;
      c <- at_ subs 0; c <- to_type c; ar <- at_ subs 1; ar <- to_tuple ar;
      kw <- at_ subs 2; kw <- to_dict kw;
      Ok (CreateActor b c i ar kw s f)
  | VInt 4 =>
      b <- base_deserial t; r <- ref_at t 4; f <- neg t 1; Ok (DestroyActor b (Some r) f)
  | VInt 5 => b <- base_deserial t; r <- ref_at t 3; Ok (HasActor b (Some r))
  | VInt 6 => b <- base_deserial t; r <- ref_at t 3; Ok (ActorRef_ b (Some r))
  | VInt 7 =>
      b <- base_deserial t; r <- ref_at t 3; c <- at_ subs 0; Ok (Send b (Some r) c)
  | VInt 8 =>
      b <- base_deserial t; r <- ref_at t 3; c <- at_ subs 0; Ok (Tell b (Some r) c)
  | VInt 9 =>
      b <- base_deserial t; a <- neg t 2; a <- to_str a; i <- neg t 1; i <- to_bytes i;
      Ok (Cancel b a i)
  | VInt 10 => b <- base_deserial t; c <- at_ subs 0; Ok (CopyToBuffers b c)
  | VInt 11 => b <- base_deserial t; c <- at_ subs 0; Ok (CopyToFileObjects b c)
  | VInt 12 =>
      match fuel with
      | 0 => Fail IndexError
      | S f =>
          b <- base_deserial (firstn 5 t); a <- at_ t 5; a <- to_str a;
          tp' <- at_ t 6; raw <- deserial_members f tp' (skipn 6 t) subs;
          Ok (Forward b a (Some raw))
      end
  | _ => Fail KeyError
  end.

(** MessageSerializer.deserial, 618-624 *)
Definition deserial (t subs : list val) : res msg :=
  tp <- at_ t 0; deserial_members (List.length t) tp t subs.

(** on_deserial_error, 626-638: the id in DeserializeMessageFailed *)
Definition failed_id (t : list val) : res val := at_ t 1.
