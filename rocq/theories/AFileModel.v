(** * AFileModel: asynchronous files and events

    Models python/xoscar/aio/base.py 23-86 ([_make_delegate_method], [_make_proxy_method],
    [AioBase.__init__]), python/xoscar/aio/file.py 23-59 ([AioFileObject]) and
    python/xoscar/aio/parallelism.py 28-39 ([AioEvent]).

    A wrapper hands each operation to an executor ([run_in_executor]) and waits for its result.
    What the executor does is written down from concurrent.futures.ThreadPoolExecutor: a number
    of threads takes the operations from one queue, first in, first out; an operation that is
    still in the queue when its caller is cancelled is dropped, one that has been started goes on
    and its result is thrown away (asyncio.wrap_future).  threading.Event: [wait] returns at
    once if the event is set, else it blocks its thread until the next [set], which releases all
    threads blocked at that moment, also if the event is cleared right away.

    Simplifications: an operation on a file takes effect at one moment while a thread executes
    it (io's buffered objects hold a lock; text files have none and are outside the model);
    [wait] has no time-out; the executor is not shut down; one event loop. *)
From Coq Require Import List Bool Arith.
Import ListNotations.

Section System.
(** What is wrapped: any object with operations [Op] that have an effect and a result (or an
    exception, which is also handed to the caller: a value of [R]). *)
Context {F Op R : Type} (exec : F -> Op -> F * R).

Inductive what := OnFile (f : nat) (o : Op) | WaitFor (e : nat).
Record job := mkJob { j_id : nat; j_what : what }.
(** [ready]: the thread can return (a wait: it has been released); [left]: its caller was
    cancelled. *)
Record thread := mkTh { t_job : job; ready : bool; left : bool }.
Inductive outcome := Value (r : R) | WasSet | AttributeError | CancelledError.

Record st := mkSt {
  threads : nat;                    (** size of the executor *)
  files : nat -> F;
  handle : nat -> option nat;       (** [AioBase._file] of each wrapper (base.py 84; 81-82: a wrapper
                                        of a wrapper gets its file) *)
  flag : nat -> bool;               (** the events *)
  queue : list job;
  running : list thread;
  outcomes : list (nat * outcome) }.  (** what the callers got, first first *)

Definition upd {A} (m : nat -> A) (k : nat) (x : A) : nat -> A := fun j => if j =? k then x else m j.
Definition with_id (i : nat) (t : thread) : bool := j_id (t_job t) =? i.
Definition is_wait (e : nat) (j : job) : bool := match j_what j with WaitFor e' => e' =? e | _ => false end.
(** An identity is used for one call only. *)
Definition unused (s : st) (i : nat) : bool :=
  negb (existsb (fun j => j_id j =? i) (queue s) || existsb (with_id i) (running s) || existsb (fun p => fst p =? i) (outcomes s)).

Inductive event :=
  | Call (i w : nat) (o : Op)     (** a task awaits an operation of wrapper [w] *)
  | Direct (w : nat) (o : Op)     (** an operation that is not handed to the executor *)
  | Await (i e : nat)             (** a task awaits [wait()] of event [e] *)
  | SetE (e : nat) | ClearE (e : nat)
  | Start                         (** a thread takes the next operation *)
  | Finish (i : nat)              (** a thread finishes an operation *)
  | Cancel (i : nat)              (** the task that awaits call [i] is cancelled *)
  | Detach (w : nat).             (** [__aexit__] after closing: [self._file = None] *)

Definition set_files s x := mkSt (threads s) x (handle s) (flag s) (queue s) (running s) (outcomes s).
Definition set_flag s x r := mkSt (threads s) (files s) (handle s) x (queue s) r (outcomes s).
Definition set_queue s x := mkSt (threads s) (files s) (handle s) (flag s) x (running s) (outcomes s).
Definition answer s i o := mkSt (threads s) (files s) (handle s) (flag s) (queue s) (running s) (outcomes s ++ [(i, o)]).

(** base.py 23-28: the method is looked up in the event loop's thread, before anything is handed
    to the executor. *)
Definition call (s : st) (i w : nat) (o : Op) : st :=
  match handle s w with
  | None => answer s i AttributeError        (* getattr(None, attr) *)
  | Some f => set_queue s (queue s ++ [mkJob i (OnFile f o)])
  end.
(** base.py 31-35 *)
Definition direct (s : st) (w : nat) (o : Op) : st :=
  match handle s w with
  | None => s
  | Some f => set_files s (upd (files s) f (fst (exec (files s f) o)))
  end.
(** A thread takes an operation. *)
Definition begin (s : st) (j : job) : thread :=
  mkTh j (match j_what j with OnFile _ _ => true | WaitFor e => flag s e end) false.
Fixpoint take (i : nat) (l : list thread) : option (thread * list thread) :=
  match l with
  | [] => None
  | t :: r => if with_id i t then Some (t, r)
              else match take i r with Some (x, r') => Some (x, t :: r') | None => None end
  end.
(** A thread is done with an operation. *)
Definition finish (s : st) (t : thread) (r : list thread) : st :=
  let tell s o := if left t then s else answer s (j_id (t_job t)) o in
  match j_what (t_job t) with
  | OnFile f o =>
      let '(f', v) := exec (files s f) o in
      tell (mkSt (threads s) (upd (files s) f f') (handle s) (flag s) (queue s) r (outcomes s)) (Value v)
  | WaitFor _ => tell (mkSt (threads s) (files s) (handle s) (flag s) (queue s) r (outcomes s)) WasSet
  end.

Definition step (s : st) (x : event) : option st :=
  match x with
  | Call i w o => if unused s i then Some (call s i w o) else None
  | Direct w o => Some (direct s w o)
  | Await i e => if unused s i then Some (set_queue s (queue s ++ [mkJob i (WaitFor e)])) else None
  | SetE e => Some (set_flag s (upd (flag s) e true)
                     (map (fun t => if is_wait e (t_job t) then mkTh (t_job t) true (left t) else t) (running s)))
  | ClearE e => Some (set_flag s (upd (flag s) e false) (running s))
  | Start => match queue s with
             | [] => None
             | j :: q => if length (running s) <? threads s
                         then Some (mkSt (threads s) (files s) (handle s) (flag s) q (running s ++ [begin s j]) (outcomes s))
                         else None
             end
  | Finish i => match take i (running s) with
                | Some (t, r) => if ready t then Some (finish s t r) else None
                | None => None
                end
  | Cancel i =>
      if existsb (fun j => j_id j =? i) (queue s)
      then Some (answer (set_queue s (filter (fun j => negb (j_id j =? i)) (queue s))) i CancelledError)
      else match take i (running s) with
           | Some (t, r) => if left t then None
                            else Some (answer (mkSt (threads s) (files s) (handle s) (flag s) (queue s)
                                   (map (fun t => if with_id i t then mkTh (t_job t) (ready t) true else t) (running s)) (outcomes s)) i CancelledError)
           | None => None
           end
  | Detach w => Some (mkSt (threads s) (files s) (upd (handle s) w None) (flag s) (queue s) (running s) (outcomes s))
  end.
Fixpoint run (s : st) (tr : list event) : option st :=
  match tr with
  | [] => Some s
  | x :: r => match step s x with Some s' => run s' r | None => None end
  end.
Definition fresh (k : nat) (fs : nat -> F) (h : nat -> option nat) : st := mkSt k fs h (fun _ => false) [] [] [].
End System.

(** ** Iterating over the lines of a file (file.py 43-52), for an open file with this content. *)
Definition newline := 10.
Record bfile := mkB { data : list nat; pos : nat }.
(** [readline()]: up to and with the next newline *)
Fixpoint line_of (l : list nat) : list nat :=
  match l with [] => [] | c :: r => if c =? newline then [c] else c :: line_of r end.
Inductive bop := Readline | Read (n : nat) | Tell.
Definition bexec (f : bfile) (o : bop) : bfile * list nat :=
  let rest := skipn (pos f) (data f) in
  let got := match o with Readline => line_of rest | Read n => firstn n rest | Tell => [] end in
  (mkB (data f) (pos f + length got), got).
(** [__anext__], file.py 46-52; [None]: StopAsyncIteration *)
Definition anext (f : bfile) : bfile * option (list nat) :=
  let '(f', line) := bexec f Readline in
  match line with [] => (f', None) | _ => (f', Some line) end.
(** [async for]: at most [n] items *)
Fixpoint collect (n : nat) (f : bfile) : bfile * list (list nat) * bool :=
  match n with
  | 0 => (f, [], false)
  | S n => let '(f', x) := anext f in
           match x with
           | None => (f', [], true)
           | Some line => let '(f'', l, ended) := collect n f' in (f'', line :: l, ended)
           end
  end.
