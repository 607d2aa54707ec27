(** * ProfileModel: statistics of actor calls

    Models [_CallStats] and [_ProfilingData] of /repo/python/xoscar/profiling.py,
    lines 124-240.

    Simplifications.
    - Durations are integers (any numbers that compare totally).
    - The heap's items are tuples (duration, uid, address, content), compared
      lexicographically.  [rank] stands for the position of (uid, address, content)
      in that order: contents are assumed comparable (when they are not, Python
      raises TypeError, which the code ignores).
    - [heapq] is the standard library's heap: it is kept here as an ascending list,
      [heapreplace] removes the least item and adds the new one.  [sorted] orders
      equal durations arbitrarily (by the heap's layout): here, descending by rank.
    - [label]: the text "[address]uid.method(args=..., kwargs=...)"; [key]: the pair
      (uid, method name), printed injectively since method names have no dot.
    - [Counter.most_common(n)] is, as documented, the stable sort by descending count,
      cut after [n].
    - The "general" and "serialization" data of a task are left out, and so is the
      debug task, which only logs. *)
From Coq Require Import List Bool Arith ZArith Lia.
From Verif Require Import Dict.
Import ListNotations.
Open Scope Z_scope.

Record call := mkCall { duration : Z; key : nat; rank : Z; label : nat }.

(** Lexicographic comparison of heap items *)
Definition item_leb (a b : call) : bool :=
  (duration a <? duration b) || ((duration a =? duration b) && (rank a <=? rank b)).

Fixpoint push (x : call) (l : list call) : list call :=
  match l with
  | [] => [x]
  | y :: l' => if item_leb x y then x :: l else y :: push x l'
  end.

(** Lines 124-131 *)
Record stats := mkSt { threshold : Z; counter : list (nat * nat); slow : list call }.
Definition new_stats (thr : Z) : stats := mkSt thr [] [].

(** [self._call_counter[key] += 1]: a new key goes to the end *)
Fixpoint incr (k : nat) (d : list (nat * nat)) : list (nat * nat) :=
  match d with
  | [] => [(k, 1%nat)]
  | (k', n) :: d => if (k' =? k)%nat then (k', S n) :: d else (k', n) :: incr k d
  end.

(** Lines 133-150 *)
Definition collect (s : stats) (c : call) : stats :=
  let cnt := incr (key c) (counter s) in
  if duration c <? threshold s then mkSt (threshold s) cnt (slow s)
  else mkSt (threshold s) cnt
    (if (length (slow s) <? 10)%nat then push c (slow s)
     else match slow s with [] => [] | _ :: l => push c l end).

(** Stable insertion sort by descending count *)
Fixpoint ins_desc (x : nat * nat) (l : list (nat * nat)) : list (nat * nat) :=
  match l with
  | [] => [x]
  | y :: l' => if (snd y <=? snd x)%nat then x :: l else y :: ins_desc x l'
  end.
Fixpoint sort_desc (l : list (nat * nat)) : list (nat * nat) :=
  match l with [] => [] | x :: l => ins_desc x (sort_desc l) end.

(** Lines 152-166 *)
Definition to_dict (s : stats) : list (nat * nat) * list (nat * Z) :=
  (firstn 10 (sort_desc (counter s)),
   fold_left (fun d c => gset Nat.eqb d (label c) (duration c)) (rev (slow s)) []).

(** ** Tasks: lines 169-240 *)
Inductive message := Send | Tell | Other.
Inductive op :=
| Init (task : nat) (thr : Z)              (* init(task_id, {slow_calls_duration_threshold: thr}) *)
| Pop (task : nat)                         (* pop(task_id) *)
| Call (m : message) (c : call).           (* collect_actor_call(message, duration) *)

(** [_call_stats] and [_data] have the same keys *)
Definition tasks := list (nat * stats).
Definition result := option (list (nat * nat) * list (nat * Z)).
Definition step (d : tasks) (o : op) : tasks * result :=
  match o with
  | Init t thr => (gset Nat.eqb d t (new_stats thr), None)                   (* 187-200 *)
  | Pop t => (gdel Nat.eqb d t, match gget Nat.eqb d t with Some s => Some (to_dict s) | None => None end)   (* 220-228 *)
  | Call Other _ => (d, None)                                       (* 230-236 *)
  | Call _ c => (map (fun p => (fst p, collect (snd p) c)) d, None)
  end.

Inductive reach : tasks -> list op -> Prop :=
| reach_start : reach [] []
| reach_step d h o d' r : reach d h -> step d o = (d', r) -> reach d' (o :: h).
