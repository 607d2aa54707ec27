(** * IdModel: the ids that are made up

    Models [reset_id_random_seed] and [new_random_id] (/repo/python/xoscar/_utils.pyx 139-177) with the generator and flag of a
    process (34-35), of which every actor created without a uid (/repo/python/xoscar/context.pyx 279), buffer and file
    reference (context.pyx 197, 214) and message (/repo/python/xoscar/backends/message.pyx 646) gets 32 bytes; and the new
    seeds of a sub pool (/repo/python/xoscar/backends/indigen/pool.py 204-206).

    Randomness is idealised: the numbers that Python's [random] gives are all different for different seeds or draws, and
    so are the words of the Mersenne Twister for different seeds or positions; fresh entropy of the system, and uuid1,
    never repeat.  So a word is (seed, position), a seed of the twister is (what Python's [random] was seeded with, number of the draw).
    CPython seeds [random] anew in a forked child; the twister, in C++, is copied.  Simplification: processes do not end. *)
From Coq Require Import List Arith.
Import ListNotations.

Inductive origin := Entropy (n : nat) | User (k : nat) | Uuid (n : nat).
Definition seed : Type := origin * nat.
Definition word : Type := seed * nat.
Record proc := mkP { from : origin; draws : nat; gen : option (seed * nat) }.
Record world := mkW { procs : nat -> option proc; fresh : nat; made : list (nat * list word) }.
Definition upd (f : nat -> option proc) (p : nat) (x : proc) : nat -> option proc := fun q => if q =? p then Some x else f q.

(** _utils.pyx 139-145 *)
Definition reset (x : proc) : proc := mkP (from x) (S (draws x)) (Some ((from x, draws x), 0)).
(** 151-158 *)
Definition qw_num (byte_len : nat) : nat := let q := byte_len / 8 in if q * 8 <? byte_len then q + 1 else q.
(** 154-155 *)
Definition ready (x : proc) : proc := match gen x with None => reset x | Some _ => x end.
(** 167-169 and 177: the words of an id, and the process after it. *)
Definition new_id (x : proc) : list word * proc :=
  let y := ready x in
  match gen y with
  | Some (s, n) => (map (fun i => (s, n + i)) (seq 0 (qw_num 32)), mkP (from y) (draws y) (Some (s, n + qw_num 32)))
  | None => ([], y)
  end.

Inductive event :=
| Start (p : nat)            (* a new interpreter *)
| Fork (p q : nat)           (* os.fork, e.g. by multiprocessing *)
| Seed (p k : nat)           (* the user's random.seed(k) *)
| Draw (p : nat)             (* any use of Python's random *)
| SubPool (p : nat)          (* pool.py 204-206 *)
| NewId (p : nat).

Definition step (w : world) (e : event) : option world :=
  match e with
  | Start p => match procs w p with
               | Some _ => None
               | None => Some (mkW (upd (procs w) p (mkP (Entropy (fresh w)) 0 None)) (S (fresh w)) (made w))
               end
  | Fork p q => match procs w p, procs w q with
                | Some x, None => Some (mkW (upd (procs w) q (mkP (Entropy (fresh w)) 0 (gen x))) (S (fresh w)) (made w))
                | _, _ => None
                end
  | Seed p k => option_map (fun x => mkW (upd (procs w) p (mkP (User k) 0 (gen x))) (fresh w) (made w)) (procs w p)
  | Draw p => option_map (fun x => mkW (upd (procs w) p (mkP (from x) (S (draws x)) (gen x))) (fresh w) (made w)) (procs w p)
  | SubPool p => option_map (fun x => mkW (upd (procs w) p (reset (mkP (Uuid (fresh w)) 0 (gen x)))) (S (fresh w)) (made w)) (procs w p)
  | NewId p => option_map (fun x => let '(i, y) := new_id x in mkW (upd (procs w) p y) (fresh w) (made w ++ [(p, i)])) (procs w p)
  end.
Fixpoint run (w : world) (h : list event) : option world :=
  match h with [] => Some w | e :: h' => match step w e with Some w' => run w' h' | None => None end end.
Definition start : world := mkW (fun _ => None) 0 [].
