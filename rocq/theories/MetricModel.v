(** * MetricModel: counters, gauges, meters, histograms and their backends

    Models /repo/python/xoscar/metrics/backends/metric.py (lines 22-148),
    console_metric.py, prometheus_metric.py and lines 30-205 of
    /repo/python/xoscar/metrics/api.py.

    Simplifications.
    - Recorded values are integers; sums, averages and rates are exact rationals
      (the code computes with Python numbers; floats would round).
    - Times are integers, in nanoseconds.  No assumption is made on the clock: it
      may stand still or go back.
    - Metric objects stay referenced ([_metrics_to_be_initialized] is a weak set,
      so an unreferenced metric is not connected; nobody can record to it either),
      and the set is walked in the order of creation.
    - prometheus_client is installed, metric names are legal for it, and tags match
      the declared keys.  [pc.Gauge] raises ValueError for a name used before.
      The host and pid tags, equal for all reports of a process, are left out. *)
From Coq Require Import List Bool Arith ZArith QArith Qminmax Ascii Lia.
Import ListNotations.
Open Scope Z_scope.

Definition threshold : Z := 2000.                 (* metric.py 21 *)
Definition second : Z := 1000000000.
Definition interval : Z := 1 * second.            (* metric.py 22: 1 second *)
Definition smallest_past : Z := 1.                (* metric.py 116: 1e-9 seconds *)

Inductive kind := Counter | Gauge | Meter | Histogram.

(** metric.py 43-60, 79-84, 105-111, 131-137: a metric of a backend *)
Record metric := mkM { mkind : kind; count : Z; data : list Z; last_time : Z }.
Definition fresh (k : kind) (now : Z) : metric := mkM k 0 [] now.

Definition sum (l : list Z) : Z := fold_left Z.add l 0.

(** [record] of the four classes: the new state and what is passed to [_record].
    metric.py 86-88 (counter), 99-100 (gauge), 113-122 (meter), 139-149 (histogram) *)
Definition record (m : metric) (v now : Z) : metric * option Q :=
  match mkind m with
  | Counter =>
      let c := count m + v in
      (mkM Counter c (data m) (last_time m), Some (inject_Z c))
  | Gauge => (m, Some (inject_Z v))
  | Meter =>
      let c := count m + v in
      let past := Z.max (now - last_time m) smallest_past in
      if (threshold <=? c) || (interval <=? past)
      then (mkM Meter 0 (data m) now, Some ((c * second) # Z.to_pos past))
      else (mkM Meter c (data m) (last_time m), None)
  | Histogram =>
      let d := data m ++ [v] in
      if (threshold <=? Z.of_nat (length d)) || (interval <=? now - last_time m)
      then (mkM Histogram (count m) [] now, Some (sum d # Pos.of_nat (length d)))
      else (mkM Histogram (count m) d (last_time m), None)
  end.

Definition text := list ascii.
Definition tags := list (text * text).
Inductive backend := Console | Prometheus.

(** prometheus_metric.py 36: [.] becomes [:] *)
Definition norm (n : text) : text := map (fun c => if Ascii.eqb c "."%char then ":"%char else c) n.
Fixpoint text_eqb (a b : text) : bool :=
  match a, b with
  | [], [] => true
  | x :: a, y :: b => Ascii.eqb x y && text_eqb a b
  | _, _ => false
  end.

(** A metric object handed to the user.  [target]: the backend's metric, and
    whether what it passes to [_record] gets out ([_metric] of prometheus_metric.py
    40-45 is not [None]).  [wrapper]: api.py 83-127; a wrapper without target is
    not initialised. *)
Record cell := mkC { cname : text; ckind : kind; wrapper : bool; target : option (metric * bool) }.

(** api.py 30-38; [regs]: the names registered with prometheus_client *)
Record sys := mkS { init : bool; back : backend; cells : list cell; regs : list text }.
Definition start : sys := mkS false Console [] [].

(** Constructing a metric of a backend: metric.py 43-60 with the backend's [_init]
    (console_metric.py 67-68, prometheus_metric.py 33-45) *)
Definition construct (b : backend) (rs : list text) (n : text) (k : kind) (now : Z)
  : list text * (metric * bool) :=
  match b with
  | Console => (rs, (fresh k now, true))
  | Prometheus =>
      if existsb (text_eqb (norm n)) rs then (rs, (fresh k now, false))
      else (norm n :: rs, (fresh k now, true))
  end.

(** api.py 67-70: connect the wrappers *)
Fixpoint connect (b : backend) (rs : list text) (cs : list cell) (now : Z) : list text * list cell :=
  match cs with
  | [] => (rs, [])
  | c :: cs =>
      if wrapper c then
        let (rs1, t) := construct b rs (cname c) (ckind c) now in
        let (rs2, cs2) := connect b rs1 cs now in
        (rs2, mkC (cname c) (ckind c) true (Some t) :: cs2)
      else
        let (rs2, cs2) := connect b rs cs now in
        (rs2, c :: cs2)
  end.

Inductive op :=
| Init (b : backend) (now : Z)        (* init_metrics(backend) *)
| Shutdown                            (* shutdown_metrics() *)
| New (n : text) (k : kind) (now : Z) (* Metrics.counter(name) etc. *)
| Record (i : nat) (v now : Z) (t : tags). (* the i-th metric's record(v, tags) *)

(** Replace the i-th element *)
Fixpoint put {A} (i : nat) (x : A) (l : list A) : list A :=
  match l, i with
  | [], _ => []
  | _ :: l, O => x :: l
  | y :: l, S i => y :: put i x l
  end.

(** A value that reaches the backend's output, with its tags *)
Definition report : Type := Q * tags.

(** One call; the output is the report it makes, if any. *)
Definition step (s : sys) (o : op) : sys * option report :=
  match o with
  | Init b now =>                        (* api.py 41-71 *)
      if init s then (s, None)
      else let (rs, cs) := connect b (regs s) (cells s) now in (mkS true b cs rs, None)
  | Shutdown => (mkS false Console (cells s) (regs s), None)   (* api.py 74-79 *)
  | New n k now =>                       (* api.py 130-146 with 175-205 *)
      if init s then
        let (rs, t) := construct (back s) (regs s) n k now in
        (mkS (init s) (back s) (cells s ++ [mkC n k false (Some t)]) rs, None)
      else (mkS (init s) (back s) (cells s ++ [mkC n k true None]) (regs s), None)
  | Record i v now t =>                  (* api.py 119-127; or the backend metric directly *)
      match nth_error (cells s) i with
      | Some (mkC n k w (Some (m, out))) =>
          let (m', r) := record m v now in
          (mkS (init s) (back s) (put i (mkC n k w (Some (m', out))) (cells s)) (regs s),
           if out then match r with Some q => Some (q, t) | None => None end else None)
      | _ => (s, None)
      end
  end.

(** Executions, with the history of calls and reports, newest first *)
Inductive reach : sys -> list (op * option report) -> Prop :=
| reach_start : reach start []
| reach_step s h o s' r : reach s h -> step s o = (s', r) -> reach s' ((o, r) :: h).
