(** * PercentileModel: windowed order statistics of recorded values

    Models [Percentile] and [record_time_cost_percentile] of
    /repo/python/xoscar/metrics/api.py, lines 214-287.

    Simplifications.
    - Values are integers (any numbers that compare totally and have a negation
      behave the same; NaN is excluded).
    - [queue.PriorityQueue] is the standard library's heap; it is modelled by
      what it guarantees: [get_nowait] removes and returns the least element.
      It is kept as an ascending list.
    - [int(window * 0.01)] is computed with exact rationals.  (The floats 0.01,
      0.05 and 0.1 lie above 1/100, 1/20 and 1/10 by less than 1e-17, so that
      the two agree for windows below 2^50.) *)
From Coq Require Import List Bool Arith ZArith Lia.
Import ListNotations.
Open Scope Z_scope.

(** PriorityQueue.put *)
Fixpoint insert (x : Z) (l : list Z) : list Z :=
  match l with
  | [] => [x]
  | y :: l' => if x <=? y then x :: l else y :: insert x l'
  end.

(** Lines 222-228 *)
Record recorder := mkR { capacity : nat; window : nat; heap : list Z; cur_num : nat }.

(** Lines 222-235; [None] is the ValueError *)
Definition create (cap win : Z) : option recorder :=
  if (cap <=? 0) || (win <=? 0) then None
  else Some (mkR (Z.to_nat cap) (Z.to_nat win) [] 0).

(** Lines 237-250: the new recorder, and the value given to the callback if it is called.
    [None]: [get_nowait] on an empty queue raises. *)
Definition record_data (r : recorder) (v : Z) : option (recorder * option Z) :=
  let store_value := - 1 * v in
  match
    (if (length (heap r) <? capacity r)%nat then Some (insert store_value (heap r))
     else match heap r with
          | [] => None
          | top :: rest => Some (insert (if top <? store_value then store_value else top) rest)
          end)
  with
  | None => None
  | Some h =>
      let n := S (cur_num r) in
      if (n mod window r =? 0)%nat then
        match h with
        | [] => None
        | t :: _ => Some (mkR (capacity r) (window r) [] 0, Some (- 1 * t))
        end
      else Some (mkR (capacity r) (window r) h n, None)
  end.

(** A sequence of [record_data] calls, and the values the callback got. *)
Fixpoint record_all (r : recorder) (vs : list Z) : option (recorder * list Z) :=
  match vs with
  | [] => Some (r, [])
  | v :: vs =>
      match record_data r v with
      | None => None
      | Some (r', o) =>
          match record_all r' vs with
          | None => None
          | Some (r'', out) => Some (r'', match o with Some x => x :: out | None => out end)
          end
      end
  end.

(** Lines 252-262 *)
Inductive ptype := P99 | P95 | P90.
Definition build (p : ptype) (win : Z) : option recorder :=
  match p with
  | P99 => create (win / 100) win
  | P95 => create (win / 20) win
  | P90 => create (win / 10) win
  end.

(** Lines 279-293: [record_time_cost_percentile]; [cost] is the measured time.
    Result: the calls of the callbacks; [None] when building raises. *)
Fixpoint build_all (args : list (ptype * Z)) : option (list recorder) :=
  match args with
  | [] => Some []
  | (p, w) :: args =>
      match build p w, build_all args with
      | Some r, Some rs => Some (r :: rs)
      | _, _ => None
      end
  end.
Definition record_time_cost (args : list (ptype * Z)) (cost : Z) : option (list (list Z)) :=
  match build_all args with
  | None => None
  | Some rs => Some (map (fun r => match record_all r [cost] with Some (_, out) => out | None => [] end) rs)
  end.
