(** Model of the request handling of one actor pool.
    Source: python/xoscar/backends/pool.py: _ErrorProcessor 94-115,
    _register_message_handler 118-136, _run_coro 387-392, _send_channel 393-427,
    process_message 429-445, on_new_channel 572-598, ActorPoolBase.create_actor
    612-634, has_actor 637-643, destroy_actor 646-661, actor_ref 664-679, send
    682-697, tell 700-716, cancel 719-732.

    Actor ids, message ids and results are numbers.  The user's coroutines
    (__post_create__, __pre_destroy__, __on_receive__) are not modelled: a task
    that awaits one stays suspended until an [EResume] event says how it ended.
    Everything between two awaits is one atomic step, as in asyncio.  The
    constructor of an actor may fail ([ctor_ok]).  [forward], control and copy
    messages are not in this model. *)
From Coq Require Import List Arith Bool.
From Verif Require Import Base.
Import ListNotations.

Inductive exc :=
| XExists            (** ActorAlreadyExist *)
| XNotExist          (** ActorNotExist *)
| XUser (e : nat)    (** raised by the user's code *)
| XCancelled         (** asyncio.CancelledError *)
| XKey               (** KeyError *)
| XCannotCancel      (** CannotCancelTask *)
| XSendFailed.       (** SendMessageFailed *)

Inductive body :=
| BRef (uid : nat)   (** ActorRef *)
| BBool (b : bool)
| BUid (uid : nat)
| BRes (v : nat)
| BNone
| BErr (x : exc).    (** ErrorMessage *)

Definition reply := (nat * body)%type.   (** message id, content *)

Inductive kind :=
| KCreate (uid : nat) (ctor_ok : bool)
| KHas (uid : nat)
| KDestroy (uid : nat)
| KRef (uid : nat)
| KSend (uid : nat)
| KTell (uid : nat)
| KCancel (target : nat)
| KOther.            (** a message type without handler, e.g. [result] *)

Record request := Req { r_id : nat; r_kind : kind }.

(** How an awaited user coroutine ends. *)
Inductive ended := Fine (v : nat) | Threw (e : nat) | WasCancelled.

(** How an attempt to write to the channel ends. *)
Inductive sent := SOk | SClosed (** ChannelClosed, ConnectionResetError *) | SOther.

Inductive phase :=
| PPost (uid : nat)       (** awaiting __post_create__ *)
| PPre (uid : nat)        (** awaiting __pre_destroy__ *)
| PCall                   (** awaiting __on_receive__ *)
| PTell                   (** awaiting asyncio.sleep(0), 709 *)
| PSend (b : body) (resend_failure : bool)   (** awaiting channel.send *)
| PEnd.

Record task := Task {
  t_req : request;
  t_phase : phase;
  t_result : option body;   (** what the handler produced (history) *)
  t_sends : list sent;      (** how the attempts to answer went (history) *)
  t_cancel : bool           (** task.cancel() was called *)
}.

Record pool := Pool {
  actors : dict nat;        (** self._actors: uid -> instance number *)
  made : nat;               (** number of actor instances constructed *)
  procs : dict nat;         (** self._process_messages: message id -> task *)
  tasks : list task;        (** every process_message task, in starting order *)
  log : list (request * body);   (** handler results in order (history) *)
  wire : list (nat * reply)      (** answers written to a channel: task, message (history) *)
}.

Definition init : pool := Pool [] 0 [] [] [] [].

(** The first atomic part of a handler: either it suspends, or it has produced
    the content of the answer.  Exceptions are turned into ErrorMessages by
    _ErrorProcessor.__exit__ (94-115). *)
Inductive first := Suspend (p : phase) | Answer (b : body).

Definition handler_start (s : pool) (r : request) : pool * first :=
  match r_kind r with
  | KCreate uid ctor_ok =>
      if dmem (actors s) uid then (s, Answer (BErr XExists))
      else if ctor_ok then
        (Pool (dset (actors s) uid (made s)) (S (made s)) (procs s) (tasks s) (log s) (wire s),
         Suspend (PPost uid))
      else (s, Answer (BErr (XUser 0)))
  | KHas uid => (s, Answer (BBool (dmem (actors s) uid)))
  | KDestroy uid =>
      if dmem (actors s) uid then (s, Suspend (PPre uid)) else (s, Answer (BErr XNotExist))
  | KRef uid => (s, Answer (if dmem (actors s) uid then BRef uid else BErr XNotExist))
  | KSend uid => if dmem (actors s) uid then (s, Suspend PCall) else (s, Answer (BErr XNotExist))
  | KTell uid => if dmem (actors s) uid then (s, Suspend PTell) else (s, Answer (BErr XNotExist))
  | KCancel target =>
      match dget (procs s) target with
      | None => (s, Answer (BErr XCannotCancel))
      | Some k =>
          match nth_error (tasks s) k with
          | Some t =>
              (Pool (actors s) (made s) (procs s)
                 (lset (tasks s) k (Task (t_req t) (t_phase t) (t_result t) (t_sends t) true))
                 (log s) (wire s), Answer (BBool true))
          | None => (s, Answer (BErr XCannotCancel))
          end
      end
  | KOther => (s, Answer BNone)   (** not used, see [step] *)
  end.

(** The rest of a handler, after its user coroutine ended. *)
Definition handler_end (s : pool) (p : phase) (e : ended) : pool * body :=
  match p with
  | PPost uid =>
      (s, match e with Fine _ => BRef uid | Threw x => BErr (XUser x) | WasCancelled => BErr XCancelled end)
  | PPre uid =>
      match e with
      | Fine _ =>
          if dmem (actors s) uid then
            (Pool (ddel (actors s) uid) (made s) (procs s) (tasks s) (log s) (wire s), BUid uid)
          else (s, BErr XKey)
      | Threw x => (s, BErr (XUser x))
      | WasCancelled => (s, BErr XCancelled)
      end
  | PCall => (s, match e with Fine v => BRes v | Threw x => BErr (XUser x) | WasCancelled => BErr XCancelled end)
  | _ => (s, match e with Fine _ => BNone | Threw x => BErr (XUser x) | WasCancelled => BErr XCancelled end)
  end.

Inductive event :=
| EStart (r : request)              (** a process_message task starts *)
| EResume (k : nat) (e : ended)     (** the coroutine awaited by task [k] ended *)
| ESend (k : nat) (o : sent).       (** the channel.send of task [k] ended *)

Definition set_phase (t : task) (p : phase) (res : option body) (sends : list sent) : task :=
  Task (t_req t) p res sends (t_cancel t).

Definition step (s : pool) (ev : event) : pool :=
  match ev with
  | EStart r =>
      let k := length (tasks s) in
      match r_kind r with
      | KOther =>      (** 430: KeyError outside the _ErrorProcessor: the task just ends *)
          Pool (actors s) (made s) (procs s) (tasks s ++ [Task r PEnd None [] false]) (log s) (wire s)
      | _ =>
          let (s1, f) := handler_start s r in
          match f with
          | Suspend p =>      (** 388: _process_messages[message_id] = current task *)
              Pool (actors s1) (made s1) (dset (procs s1) (r_id r) k)
                   (tasks s1 ++ [Task r p None [] false]) (log s1) (wire s1)
          | Answer b =>       (** 392: pop(message_id, None) *)
              Pool (actors s1) (made s1) (ddel (procs s1) (r_id r))
                   (tasks s1 ++ [Task r (PSend b true) (Some b) [] false])
                   (log s1 ++ [(r, b)]) (wire s1)
          end
      end
  | EResume k e =>
      match nth_error (tasks s) k with
      | None => s
      | Some t =>
          match t_phase t with
          | PSend _ _ | PEnd => s
          | p =>
              let (s1, b) := handler_end s p e in
              Pool (actors s1) (made s1) (ddel (procs s1) (r_id (t_req t)))
                   (lset (tasks s1) k (set_phase t (PSend b true) (Some b) (t_sends t)))
                   (log s1 ++ [(t_req t, b)]) (wire s1)
          end
      end
  | ESend k o =>
      match nth_error (tasks s) k with
      | None => s
      | Some t =>
          match t_phase t with
          | PSend b resend =>
              let fin p := lset (tasks s) k (set_phase t p (t_result t) (t_sends t ++ [o])) in
              match o with
              | SOk => Pool (actors s) (made s) (procs s) (fin PEnd) (log s)
                            (wire s ++ [(k, (r_id (t_req t), b))])
              | SClosed => Pool (actors s) (made s) (procs s) (fin PEnd) (log s) (wire s)
              | SOther =>
                  if resend
                  then Pool (actors s) (made s) (procs s) (fin (PSend (BErr XSendFailed) false)) (log s) (wire s)
                  else Pool (actors s) (made s) (procs s) (fin PEnd) (log s) (wire s)
              end
          | _ => s
          end
      end
  end.

Definition run (s : pool) (evs : list event) : pool := fold_left step evs s.
