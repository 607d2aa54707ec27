(** * WorkerModel: the worker processes of an actor pool

    Models the life of worker processes as python/xoscar/backends/pool.py
    1285-1337 ([MainActorPoolBase.create]), 1339-1365 ([start_monitor], [stop]),
    1381-1430 ([attach_sub_process], [stop_sub_pools], [stop_sub_pool]), 1457-1490
    ([monitor_sub_pools]) and python/xoscar/backends/indigen/pool.py 149-163
    ([wait_sub_pools_ready]), 262-339 ([_create_sub_pool_from_parent]), 341-405
    ([append_sub_pool]), 407-422 ([remove_sub_pool]), 424-490 ([kill_sub_pool]),
    492-493, 495-506 ([recover_sub_pool]) handle them.

    One step is what happens between two awaits.  Simplifications:
    - a worker is booting, then serving (it has reported its address through
      shared memory), then gone (it has exited, or SIGKILL has been sent to it);
      it may exit at any time;
    - [kill_sub_pool] ends with the process gone: it waits for it, or sends
      SIGKILL (indigen/pool.py 428-459, 476-490);
    - the stop message to a worker is answered, times out, or fails with a
      connection error, all of which lead to [kill_sub_pool] (pool.py 1409-1430);
      any other exception would make [stop] raise;
    - the main process itself does not die;
    - the monitor handles one address at a time (it does); [on_process_down] and
      [on_process_recover] do not touch the workers;
    - actors and configuration are not modelled here (C15, C20, C38). *)
From Coq Require Import List Bool Arith Lia.
Import ListNotations.

Definition addr := nat.
Definition pid := nat.
Inductive proc := Booting | Up | Gone.

Inductive phase :=
| Creating (todo : list addr) (waiting : list (addr * pid))  (** pool.py 1293-1312: [create] *)
| Running                                                    (** the pool exists *)
| Stopping (left : list (addr * pid))                        (** pool.py 1359, 1384-1394 *)
| Stopped                                                    (** [stop] has returned *)
| Failed.                                                    (** [create] has raised *)

Record st := mkW {
  next : pid;                          (** processes started so far *)
  reported : list pid;                 (** workers whose address arrived *)
  life : pid -> proc;
  ph : phase;
  handles : list (addr * pid);         (** [self.sub_processes] *)
  recovering : option (addr * pid);    (** the monitor's [recover_sub_pool] in progress *)
  appending : list (addr * pid);       (** calls of [append_sub_pool] in progress *)
  removing : list (addr * pid) }.      (** calls of [remove_sub_pool] in progress *)

Definition set_life (f : pid -> proc) (p : pid) (x : proc) : pid -> proc :=
  fun q => if q =? p then x else f q.
Definition without (l : list (addr * pid)) (a : addr) := filter (fun e => negb (fst e =? a)) l.
(** [d[a] = p] *)
Definition put (l : list (addr * pid)) (a : addr) (p : pid) := without l a ++ [(a, p)].
Definition drop (l : list (addr * pid)) (p : pid) := filter (fun e => negb (snd e =? p)) l.

Definition init (addrs : list addr) : st :=
  mkW 0 [] (fun _ => Gone) (Creating addrs []) [] None [] [].

(** Two live workers do not listen on one address. *)
Definition free (s : st) (a : addr) : Prop := forall p, In (a, p) (handles s) -> life s p = Gone.

Inductive label :=
| WReady (p : pid) | WExit (p : pid)
| CSpawn (a : addr) | CDone | CWorkerFails (p : pid) | CMainFails
| MStart (a : addr) | MDone | MFails
| AStart (a : addr) | ADone (a : addr) (p : pid) | AFails (p : pid)
| RStart (a : addr) | RDone (p : pid)
| SBegin | SKill (p : pid) | SEnd.

Inductive step (s : st) : label -> st -> Prop :=
(** A booting worker writes its address (indigen/pool.py 259); its starter sees it. *)
| w_ready p : life s p = Booting ->
    step s (WReady p) (mkW (next s) (p :: reported s) (set_life (life s) p Up) (ph s) (handles s) (recovering s) (appending s) (removing s))
(** A worker exits by itself. *)
| w_exit p : p < next s -> life s p <> Gone ->
    step s (WExit p) (mkW (next s) (reported s) (set_life (life s) p Gone) (ph s) (handles s) (recovering s) (appending s) (removing s))
(** pool.py 1300-1309 with indigen/pool.py 307: one task per worker *)
| c_spawn a todo w : ph s = Creating (a :: todo) w ->
    step s (CSpawn a) (mkW (S (next s)) (reported s) (set_life (life s) (next s) Booting)
      (Creating todo (w ++ [(a, next s)])) (handles s) (recovering s) (appending s) (removing s))
(** pool.py 1310-1325: all have reported, the main server is up, the handles are kept *)
| c_done w : ph s = Creating [] w -> (forall a p, In (a, p) w -> In p (reported s)) ->
    step s CDone (mkW (next s) (reported s) (life s) Running w (recovering s) (appending s) (removing s))
(** indigen/pool.py 153-154 and 337-338: the awaited start has failed.  [error] (line 152)
    is never set, so lines 157-161 do nothing. *)
| c_worker_fails pre a p post : ph s = Creating [] (pre ++ (a, p) :: post) ->
    (forall b q, In (b, q) pre -> In q (reported s)) -> life s p = Gone -> ~ In p (reported s) ->
    step s (CWorkerFails p) (mkW (next s) (reported s) (life s) Failed (handles s) (recovering s) (appending s) (removing s))
(** pool.py 1318: the main pool's servers cannot be created (address in use, ...) *)
| c_main_fails w : ph s = Creating [] w -> (forall a p, In (a, p) w -> In p (reported s)) ->
    step s CMainFails (mkW (next s) (reported s) (life s) Failed (handles s) (recovering s) (appending s) (removing s))
(** pool.py 1461-1471, indigen/pool.py 495-500 *)
| m_start a p : ph s = Running -> In (a, p) (handles s) -> life s p = Gone -> recovering s = None ->
    step s (MStart a) (mkW (S (next s)) (reported s) (set_life (life s) (next s) Booting) (ph s) (handles s)
      (Some (a, next s)) (appending s) (removing s))
(** indigen/pool.py 500 *)
| m_done a p : ph s = Running -> recovering s = Some (a, p) -> In p (reported s) -> free s a ->
    step s MDone (mkW (next s) (reported s) (life s) (ph s) (put (handles s) a p) None (appending s) (removing s))
(** pool.py 1483-1487: logged *)
| m_fails a p : ph s = Running -> recovering s = Some (a, p) -> life s p = Gone -> ~ In p (reported s) ->
    step s MFails (mkW (next s) (reported s) (life s) (ph s) (handles s) None (appending s) (removing s))
(** indigen/pool.py 390-392.  Nothing stops a call that comes in while or after the pool stops. *)
| a_start a : (ph s = Running \/ (exists l, ph s = Stopping l) \/ ph s = Stopped) ->
    step s (AStart a) (mkW (S (next s)) (reported s) (set_life (life s) (next s) Booting) (ph s) (handles s)
      (recovering s) (appending s ++ [(a, next s)]) (removing s))
(** indigen/pool.py 394-395 *)
| a_done a p : In (a, p) (appending s) -> In p (reported s) -> free s a ->
    step s (ADone a p) (mkW (next s) (reported s) (life s) (ph s) (put (handles s) a p) (recovering s) (drop (appending s) p) (removing s))
(** indigen/pool.py 337-338 *)
| a_fails a p : In (a, p) (appending s) -> life s p = Gone -> ~ In p (reported s) ->
    step s (AFails p) (mkW (next s) (reported s) (life s) (ph s) (handles s) (recovering s) (drop (appending s) p) (removing s))
(** indigen/pool.py 410-413 *)
| r_start a p : ph s = Running -> In (a, p) (handles s) ->
    step s (RStart a) (mkW (next s) (reported s) (life s) (ph s) (without (handles s) a) (recovering s) (appending s) (removing s ++ [(a, p)]))
(** indigen/pool.py 414 with pool.py 1429: the process has been killed *)
| r_done a p : In (a, p) (removing s) ->
    step s (RDone p) (mkW (next s) (reported s) (set_life (life s) p Gone) (ph s) (handles s) (recovering s) (appending s) (drop (removing s) p))
(** pool.py 1347-1361, 1384-1389: the monitor is cancelled in whatever it does - the start it
    is waiting for is cancelled too, and indigen/pool.py 325-336 then closes the shared memory
    and forgets the process - and the live workers are listed *)
| s_begin : ph s = Running ->
    step s SBegin (mkW (next s) (reported s) (life s)
      (Stopping (filter (fun e => match life s (snd e) with Gone => false | _ => true end) (handles s)))
      (handles s) None (appending s) (removing s))
(** pool.py 1391-1394, 1396-1430 *)
| s_kill l a p : ph s = Stopping l -> In (a, p) l ->
    step s (SKill p) (mkW (next s) (reported s) (set_life (life s) p Gone) (Stopping (drop l p)) (handles s) (recovering s) (appending s) (removing s))
| s_end : ph s = Stopping [] ->
    step s SEnd (mkW (next s) (reported s) (life s) Stopped (handles s) (recovering s) (appending s) (removing s)).

(** Histories, with the states passed through *)
Inductive run (addrs : list addr) : list (st * label) -> st -> Prop :=
| run_init : run addrs [] (init addrs)
| run_step h s l s' : run addrs h s -> step s l s' -> run addrs (h ++ [(s, l)]) s'.
