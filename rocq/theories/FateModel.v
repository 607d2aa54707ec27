(** * When the process of the main pool ends

    Sources: python/xoscar/backends/indigen/fate_sharing.py 146-160 (set_kill_on_parent_death_linux),
    185-190 (preexec_fn), 206-211 (create_subprocess_exec); python/xoscar/backends/indigen/pool.py 165-235
    (_start_sub_pool_in_child with _check_ppid 188-202), 239-260; python/xoscar/backends/pool.py 883-903
    (SubActorPoolBase.__init__, _watch_main_pool).

    The state: the process number of the main pool in the operating system, and one worker.  A time unit is
    a tenth of a second; [Tick] is the passing of one.  Simplifications:
    - the worker's threads get to run when their sleep is over (no actor holds the interpreter lock for ever);
    - prctl succeeds where there is one ([linux]); a worker is started from the thread in which the main
      pool's loop runs, and that thread ends with the process (the kernel sends the signal when the thread
      that made the process ends);
    - psutil.Process(pid) and status() (psutil's documentation) fail with NoSuchProcess exactly if no process,
      not even one that has ended but was not waited for (a zombie), has the number; that they fail
      otherwise is [CheckFailed]. *)
From Coq Require Import List Arith Bool Lia.
Import ListNotations.

(** The process number of the main pool: in use by it, by the dead process (its parent has not waited for it
    yet), free, or in use by a process that has nothing to do with it. *)
Inductive number := Alive | Zombie | Free | Foreign.
Definition in_use (n : number) : bool := match n with Free => false | _ => true end.

(** The task of pool.py 891-903: not started, has failed (892 is outside of the [try]), sleeps for a time,
    has called [stop]. *)
Inductive watch := NoTask | TaskFailed | Polling (timer : nat) | Stopping.

(** A worker.  [armed]: the kernel will kill it when the main process ends. *)
Inductive worker :=
| NotYet
| Forked                                            (** before preexec_fn *)
| Starting (armed : bool)                           (** up to indigen/pool.py 202 *)
| Running (armed : bool) (timer : nat) (w : watch)  (** [timer]: until the thread's next check *)
| Ended.
Record st := mk { main : number; work : worker }.
Definition start_state : st := mk Alive NotYet.

Inductive cause := BySignal | ByCheck | ByWatch | Itself.
Inductive event :=
| Created            (** the process of the worker exists *)
| Prepared           (** preexec_fn is over *)
| Started            (** the checking thread of the worker runs *)
| WorkerEnded (c : cause)
| MainDied | PidFreed | PidTaken
| CheckFailed
| Tick.

(** time.sleep(10), asyncio.sleep(0.1) *)
Definition period := 100.
Definition nap := 1.

Definition alive (s : st) : Prop := match work s with NotYet | Ended => False | _ => True end.

(** The kernel, at the end of the main process. *)
Definition orphaned (w : worker) : worker :=
  match w with Starting true | Running true _ _ => Ended | _ => w end.
Definition kills (w : worker) : bool := match w with Starting true | Running true _ _ => true | _ => false end.

Definition slept (n : nat) : bool := match n with 0 => false | _ => true end.
(** Nobody's sleep is over. *)
Definition may_tick (w : worker) : bool :=
  match w with
  | Running _ t (Polling t') => slept t && slept t'
  | Running _ t _ => slept t
  | _ => true
  end.
Definition ticked (w : worker) : worker :=
  match w with
  | Running a t (Polling t') => Running a (pred t) (Polling (pred t'))
  | Running a t w' => Running a (pred t) w'
  | _ => w
  end.

Section Fate.
  Variable linux : bool.

  Inductive step : st -> list event -> st -> Prop :=
  | s_fork : step (mk Alive NotYet) [Created] (mk Alive Forked)
  | s_prepare : forall n,
      (* fate_sharing.py 185-190; when the main process has ended already, init is the parent: it does not end *)
      step (mk n Forked) [Prepared] (mk n (Starting (linux && match n with Alive => true | _ => false end)))
  | s_start : forall n a,
      (* indigen/pool.py 201-202; the first check is made without delay *)
      step (mk n (Starting a)) [Started] (mk n (Running a 0 NoTask))
  | s_ends : forall n w, alive (mk n w) ->
      (* a failure, an exit, a signal: whatever else ends a process *)
      step (mk n w) [WorkerEnded Itself] (mk n Ended)
  | s_check_alive : forall n a w, in_use n = true ->
      (* indigen/pool.py 188-199 *)
      step (mk n (Running a 0 w)) [] (mk n (Running a period w))
  | s_check_gone : forall n a w, in_use n = false ->
      step (mk n (Running a 0 w)) [WorkerEnded ByCheck] (mk n Ended)
  | s_check_fails : forall n a w,
      step (mk n (Running a 0 w)) [CheckFailed] (mk n (Running a period w))
  | s_watch : forall n a t,
      (* pool.py 885, 892 *)
      step (mk n (Running a t NoTask)) [] (mk n (Running a t (if in_use n then Polling 0 else TaskFailed)))
  | s_poll : forall n a t,
      (* 895-900 *)
      step (mk n (Running a t (Polling 0))) [] (mk n (Running a t (if in_use n then Polling nap else Stopping)))
  | s_stopped : forall n a t,
      (* 902-903; pool.join() returns, the interpreter ends *)
      step (mk n (Running a t Stopping)) [WorkerEnded ByWatch] (mk n Ended)
  | s_main_dies : forall w,
      step (mk Alive w) (MainDied :: if kills w then [WorkerEnded BySignal] else []) (mk Zombie (orphaned w))
  | s_freed : forall n w, n = Zombie \/ n = Foreign -> step (mk n w) [PidFreed] (mk Free w)
  | s_taken : forall w, step (mk Free w) [PidTaken] (mk Foreign w)
  | s_tick : forall n w, may_tick w = true -> step (mk n w) [Tick] (mk n (ticked w)).

  Inductive run : list event -> st -> Prop :=
  | run_init : run [] start_state
  | run_step : forall tr s out s', run tr s -> step s out s' -> run (tr ++ out) s'.
End Fate.
