(** * ReminderModel: the reminders of the debug mode

    Models [debug_async_timeout] (/repo/python/xoscar/debug.py 94-110) and [_log_timeout] (80-91), which
    surround the wait for a call to another pool (backends/context.py 245-263), the processing of a
    message (backends/pool.py 435-443, 555-571) and the holding of an actor's lock (core.pyx 471-477, 526-532,
    543-554); [set_debug_options], [DebugOptions] (39-63) and [_reload_debug_opts_from_env] (66-74).

    A block is one execution of the body of such a [with] statement.  Each block has a task of its own
    that sleeps and logs, on CPython's event loop: [Turn i] is a turn of the task of block [i], at any time
    after the moment at which it can have one ([res]: the loop's clock resolution).

    Simplifications: times are numbers of clock ticks, the clocks of [time] and of the loop are one.  A cancelled
    task ends at once and not at its next turn (in which it does nothing but end).  The text of the
    warning is its block and the time it names.  What happens within a block does not depend on its
    reminders, except that it may not be entered at all ([Refused]). *)
From Coq Require Import List Arith Bool ZArith String.
Import ListNotations.

(** A Python value given as an option: None, a number (True is 1), or something else that is true or not. *)
Inductive value := VNone | VNum (z : Z) | VOther (truthy : bool).
(** debug.py 39-46 *)
Record options := mkO { actor_call_timeout : value; process_message_timeout : value; actor_lock_timeout : value;
                        log_unhandled_errors : value; log_cycle_send : value }.
Definition defaults : options := mkO (VNum 10) (VNum 30) (VNum 30) (VNum 1) (VNum 1).
Inductive site := AwaitCall | ProcessMessage | HoldLock.
(** debug.py 99, with the option names of the three places *)
Definition timeout_val (o : options) (p : site) : value :=
  match p with AwaitCall => actor_call_timeout o | ProcessMessage => process_message_timeout o | HoldLock => actor_lock_timeout o end.

Inductive reminder := NoTask | Created (timeout : nat) | Asleep (timeout start rnd due : nat) | Stopped.
Inductive phase := Open | Left | Refused.
Record block := mkB { b_phase : phase; b_rem : reminder }.
Record st := mkSt { now : nat; opts : option options; blocks : nat -> option block;
                    log : list (nat * (nat * nat)) (** block, time of the entry, time it names *) }.
Inductive event :=
  | SetOptions (o : option options)   (** set_debug_options *)
  | Enter (i : nat) (p : site)
  | Leave (i : nat)                   (** the body ends, in whichever way *)
  | Turn (i : nat)
  | Tick (n : nat).

Definition put (s : st) i b := mkSt (now s) (opts s) (fun j => if j =? i then Some b else blocks s j) (log s).
(** debug.py 95-104 *)
Definition enter (o : option options) (p : site) : block :=
  match o with
  | None => mkB Open NoTask
  | Some o =>
      match timeout_val o p with
      | VNone => mkB Open NoTask
      | VNum z => if Z.ltb 0 z then mkB Open (Created (Z.to_nat z)) else mkB Open NoTask
      | VOther false => mkB Open NoTask
      | VOther true => mkB Refused NoTask        (* TypeError from the comparison *)
      end
  end.
Definition step (res : nat) (s : st) (x : event) : option st :=
  match x with
  | SetOptions o => Some (mkSt (now s) o (blocks s) (log s))
  | Enter i p => match blocks s i with None => Some (put s i (enter (opts s) p)) | Some _ => None end
  | Leave i =>                                   (* debug.py 108-110 *)
      match blocks s i with
      | Some (mkB Open NoTask) => Some (put s i (mkB Left NoTask))
      | Some (mkB Open _) => Some (put s i (mkB Left Stopped))
      | _ => None
      end
  | Turn i =>                                    (* debug.py 81-91 *)
      match blocks s i with
      | Some (mkB p (Created t)) => Some (put s i (mkB p (Asleep t (now s) 1 (now s + t * 1))))
      | Some (mkB p (Asleep t start rnd due)) =>
          if due <=? now s + res
          then let s' := mkSt (now s) (opts s) (blocks s) (log s ++ [(i, (now s, now s - start))]) in
               Some (put s' i (mkB p (Asleep t start (rnd + 1) (now s + t * (rnd + 1)))))
          else None
      | _ => None
      end
  | Tick n => Some (mkSt (now s + n) (opts s) (blocks s) (log s))
  end.
Fixpoint run (res : nat) (s : st) (tr : list event) : option st :=
  match tr with
  | [] => Some s
  | x :: r => match step res s x with Some s' => run res s' r | None => None end
  end.
Definition fresh (o : option options) : st := mkSt 0 o (fun _ => None) [].

(** ** The environment variable DEBUG_OSCAR (debug.py 66-74): [loads] is [json.loads], which may fail.
    [Crash]: importing xoscar raises. *)
Inductive json := JObject (fields : list (string * value)) | JOther.
Inductive setting := Off | On (o : options) | Crash.
Definition assign (o : options) (f : string * value) : option options :=
  let '(k, v) := f in let '(mkO a b c d e) := o in
  if (k =? "actor_call_timeout")%string then Some (mkO v b c d e)
  else if (k =? "process_message_timeout")%string then Some (mkO a v c d e)
  else if (k =? "actor_lock_timeout")%string then Some (mkO a b v d e)
  else if (k =? "log_unhandled_errors")%string then Some (mkO a b c v e)
  else if (k =? "log_cycle_send")%string then Some (mkO a b c d v)
  else None.
(** [cls( **config_json )]; [json.loads] keeps the last of several fields of one name *)
Fixpoint assign_all (o : options) (fs : list (string * value)) : option options :=
  match fs with
  | [] => Some o
  | f :: r => match assign o f with Some o' => assign_all o' r | None => None end
  end.
Definition from_env (loads : string -> option json) (v : option string) : setting :=
  match v with
  | None => Off
  | Some c =>
      if (c =? "0")%string then Off
      else if (c =? "1")%string then On defaults
      else match loads c with
           | Some (JObject fs) => match assign_all defaults fs with Some o => On o | None => Crash end
           | _ => Crash
           end
  end.
