(** * ErrorModel: how an exception travels from an actor to its caller

    Models python/xoscar/backends/pool.py 94-115 ([_ErrorProcessor]), 393-427
    ([_send_channel]), backends/message.pyx 207-276 ([_AsCauseBase], [ErrorMessage],
    [as_instanceof_cause]), 599-640 ([DeserializeMessageFailed]), backends/core.py
    112-115 (an undeserializable reply), backends/context.py 105-111
    ([_process_result_message]), utils.py 82-121 ([wrap_exception]) and
    serialization/exception.py 23-45 ([ExceptionSerializer]).

    An exception class is what matters of it here: how pickling its instances goes,
    whether a pickled instance can be rebuilt, whether a subclass of it can be
    instantiated without arguments, which attributes are fields of the C object
    (like [OSError.errno]) and which have a default in the class.

    Simplifications: classes and tracebacks themselves can be pickled (a class made by
    [wrap_exception] is pickled by value together with the exception it holds); texts
    are terms of [text]; values of attributes are numbers; the connection stays up. *)
From Coq Require Import List Bool Arith.
Import ListNotations.

Notation attr := nat.
(** Attributes that [wrap_exception] puts into the class (utils.py 103-116, message.pyx 261) *)
Definition a_args : attr := 0.
Definition a_address : attr := 1.
Definition a_pid : attr := 2.

Inductive text :=
| Words (n : nat)
| Label (addr pid : nat) (t : text)        (** [[address=..., pid=...] t], message.pyx 209 *)
| NoPickle (t : text)                      (** exception.py 28-32 *)
| NotSent (t : text)                       (** pool.py 414-425: [Error when sending ... Original error: t] *)
| Nothing.

(** What [cloudpickle.dumps] of an instance does *)
Inductive dumping := Dumps | RaisesTypeError | RaisesPicklingError | RaisesOther.
Record klass := mkK {
  kid : nat;
  is_exception : bool;           (** a subclass of [Exception], not just of [BaseException] *)
  is_cancelled : bool;           (** [asyncio.CancelledError] *)
  dumping_of : dumping;
  loads : bool;                  (** a pickled instance can be rebuilt *)
  bare_new : bool;               (** [__new__] accepts no arguments *)
  natives : list attr;           (** fields of the C structure *)
  defaults : list (attr * nat) } (** values in the class *).

Inductive exn :=
| Plain (k : klass) (txt : text) (args : nat) (dict fields : list (attr * nat))
| Wrapped (addr pid : nat) (e : exn).

Fixpoint klass_of (e : exn) : klass := match e with Plain k _ _ _ _ => k | Wrapped _ _ e => klass_of e end.
Definition is_wrapped (e : exn) : bool := match e with Wrapped _ _ _ => true | _ => false end.
Fixpoint str (e : exn) : text := match e with Plain _ t _ _ _ => t | Wrapped a p e => Label a p (str e) end.

Fixpoint assoc (l : list (attr * nat)) (n : attr) : option nat :=
  match l with [] => None | (m, v) :: l => if m =? n then Some v else assoc l n end.
Definition is_native (k : klass) (n : attr) : bool := existsb (Nat.eqb n) (natives k).

(** [getattr(e, n)]; [None]: AttributeError; [Some None]: the value None.  The order is Python's: C
    fields (data descriptors), the instance's dictionary, the class, [__getattr__].
    For a wrapper the class made by utils.py 119 comes first, its own C fields
    were never set (line 92: [__init__] does nothing), its dictionary is empty. *)
Fixpoint getattr (e : exn) (n : attr) : option (option nat) :=
  match e with
  | Plain k _ args dict fields =>
      if n =? a_args then Some (Some args)
      else if is_native k n then Some (assoc fields n)
      else match assoc dict n with
           | Some v => Some (Some v)
           | None => match assoc (defaults k) n with Some v => Some (Some v) | None => None end
           end
  | Wrapped a p e =>
      if n =? a_args then getattr e n
      else if n =? a_address then Some (Some a)
      else if n =? a_pid then Some (Some p)
      else if is_native (klass_of e) n then Some None
      else match assoc (defaults (klass_of e)) n with
           | Some v => Some (Some v)
           | None => getattr e n
           end
  end.

(** Builtin and xoscar's own exceptions *)
Definition plain_class (id : nat) (bare : bool) : klass := mkK id true false Dumps true bare [] [].
Definition TypeError : klass := plain_class 100 true.
Definition Unpickleable : klass := plain_class 101 true.
Definition SendMessageFailed : klass := plain_class 102 true.
Definition CancelledError : klass := mkK 103 false true Dumps true true [] [].
Definition mk (k : klass) (t : text) : exn := Plain k t 0 [] [].

(** utils.py 82-121 as called from message.pyx 257-262; [new_exc_type()] raises TypeError
    when the class insists on arguments *)
Definition wrap (a p : nat) (e : exn) : exn :=
  if bare_new (klass_of e) then Wrapped a p e else mk TypeError (Words 1).

(** message.pyx 212-276; of the type only whether it is one of wrap's classes matters *)
Record error_message := mkE { m_addr : nat; m_pid : nat; m_as_cause : bool; m_error : exn }.
(** pool.py 104-114 *)
Definition error_processor (a p : nat) (e : exn) : error_message := mkE a p (is_wrapped e) e.
(** message.pyx 242-262 *)
Definition as_instanceof_cause (m : error_message) : exn :=
  if m_as_cause m then m_error m
  else if is_cancelled (klass_of (m_error m)) then mk CancelledError (Label (m_addr m) (m_pid m) Nothing)
  else wrap (m_addr m) (m_pid m) (m_error m).

(** ** Transport *)
Inductive hop := InProcess (addr pid : nat) | Socket (addr pid : nat).
(** exception.py 36-42: what is pickled for the exception; [None]: the error passes on *)
Definition serial_error (e : exn) : option exn :=
  match dumping_of (klass_of e) with
  | Dumps => Some e
  | RaisesTypeError | RaisesPicklingError =>
      if is_exception (klass_of e) then Some (mk Unpickleable (NoPickle (str e))) else None
  | RaisesOther => None
  end.
(** The three parts of message.pyx 267: the class of a wrapper is pickled with what it holds *)
Definition serial (m : error_message) : option error_message :=
  match serial_error (m_error m) with
  | None => None
  | Some e =>
      if m_as_cause m && negb (match dumping_of (klass_of (m_error m)) with Dumps => true | _ => false end) then None
      else Some (mkE (m_addr m) (m_pid m) (m_as_cause m) e)
  end.
Inductive arrival := Message (m : error_message) | Broken.
Definition deserial (m : error_message) : arrival := if loads (klass_of (m_error m)) then Message m else Broken.
(** context.py 105-111, core.py 112-115: unpickling calls the class without its
    arguments, a TypeError *)
Definition received (x : arrival) : exn :=
  match x with Message m => as_instanceof_cause m | Broken => mk TypeError (Words 2) end.
(** pool.py 393-427 *)
Definition one_hop (h : hop) (e : exn) : exn :=
  match h with
  | InProcess a p => as_instanceof_cause (error_processor a p e)
  | Socket a p =>
      match serial (error_processor a p e) with
      | Some m => received (deserial m)
      | None =>
          match serial (error_processor a p (mk SendMessageFailed (NotSent (str e)))) with
          | Some m => received (deserial m)
          | None => mk TypeError (Words 3)
          end
      end
  end.
(** The exception passes from the actor that raised it through actors that do not
    catch it; [hops]: the pools it leaves, in order. *)
Definition travel (hops : list hop) (e : exn) : exn := fold_left (fun e h => one_hop h e) hops e.
