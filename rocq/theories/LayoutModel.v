(** * Model of the arguments and the layout of create_actor_pool

    Source: python/xoscar/backends/pool.py 1028-1035 (process indexes), 1518-1633
    ([create_actor_pool], up to the start of the main pool), python/xoscar/backends/config.py
    43-76 ([add_pool_conf]), python/xoscar/backends/indigen/pool.py 81-135
    ([get_external_addresses], [gen_internal_address]).

    [None] as result stands for a ValueError.  Environments are opaque numbers.  [n_process] is
    not negative; when it is None the caller's number of cpus takes its place (line 1537).
    Options that are copied to every pool alike (modules, suspend_sigint, use_uvloop,
    logging_conf, kwargs) are not represented. *)
From Coq Require Import String Ascii DecimalString.
From Coq Require Import List ZArith Lia Bool.
From Verif Require Import PyStr GroupModel.
Import ListNotations.
Open Scope list_scope.
Open Scope Z_scope.

(** [s.rsplit(":", 1)] for an s that contains a colon: text before and after the last one. *)
Fixpoint rsplit_go (c : ascii) (s : text) : option (text * text) :=
  match s with
  | [] => None
  | d :: s' =>
      match rsplit_go c s' with
      | Some (a, b) => Some (d :: a, b)
      | None => if Ascii.eqb c d then Some ([], s') else None
      end
  end.
(** [int(s)]: here only non-empty strings of decimal digits (Python also takes signs, blanks
    and underscores). *)
Definition digit (c : ascii) : option Z :=
  let n := Z.of_nat (nat_of_ascii c) in if (48 <=? n) && (n <=? 57) then Some (n - 48) else None.
Fixpoint int_go (acc : Z) (s : text) : option Z :=
  match s with
  | [] => Some acc
  | c :: s => match digit c with Some d => int_go (10 * acc + d) s | None => None end
  end.
Definition py_int (s : text) : option Z := match s with [] => None | _ => int_go 0 s end.

(** Python truth of an optional list: None and the empty list are false. *)
Definition wrong_len {A} (l : option (list A)) (n : nat) : bool :=
  match l with Some (x :: t) => negb (Nat.eqb (length (x :: t)) n) | _ => false end.

(** indigen/pool.py 125-127: the prefix of a scheme; None and "" give no prefix. *)
Definition prefix (s : option text) : text :=
  match s with Some (c :: t) => (c :: t) ++ lit "://" | _ => [] end.
(** indigen/pool.py 81-131 [get_external_addresses] *)
Definition get_external_addresses (address : text) (n : nat) (ports : option (list Z))
    (schemes : option (list (option text))) : option (list text) :=
  let built :=
    match rsplit_go ":"%char address with
    | Some (host, port_str) =>
        match py_int port_str with
        | None => None
        | Some port =>
            match ports with
            | Some (p :: ps) => if Nat.eqb (length (p :: ps)) n then Some (host, port :: p :: ps) else None
            | _ => Some (host, port :: repeat 0 n)
            end
        end
    | None =>
        match ports with
        | Some (p :: ps) => if Nat.eqb (length (p :: ps)) (n + 1) then Some (address, p :: ps) else None
        | _ => Some (address, repeat 0 (n + 1))
        end
    end in
  match built with
  | None => None
  | Some (host, all_ports) =>
      let prefixes := match schemes with Some (s :: ss) => map prefix (s :: ss) | _ => repeat [] (length all_ports) end in
      Some (map (fun x => snd x ++ host ++ lit ":" ++ str_int (fst x)) (combine all_ports prefixes))
  end.

(** pool.py 1028-1035: [pid << 16 + idx], which Python reads as [pid << (16 + idx)]; [idx] is a
    counter of the process. *)
Definition process_index (pid : Z) (idx : nat) : Z := Z.shiftl pid (16 + Z.of_nat idx).
(** indigen/pool.py 133-140 [gen_internal_address] *)
Definition gen_internal_address (has_unix : bool) (pindex : Z) (external : text) : text :=
  if has_unix then lit "unixsocket:///" ++ str_int pindex else external.

Record conf := { c_label : option text; c_internal : option text; c_external : text; c_env : option nat }.
(** config.py 43-72: [pools[process_index] = {...}] *)
Fixpoint add_pool_conf (pools : list (Z * conf)) (i : Z) (c : conf) : list (Z * conf) :=
  match pools with
  | [] => [(i, c)]
  | (j, d) :: pools => if i =? j then (j, c) :: pools else (j, d) :: add_pool_conf pools i c
  end.

Inductive recover := RecActor | RecProcess | RecTrue | RecFalse | RecOther.
Record args := {
  a_address : text; a_n : nat;
  a_labels : option (list (option text));
  a_ports : option (list Z);
  a_envs : option (list nat);
  a_schemes : option (list (option text));
  a_internal : option (list bool);
  a_recover : recover }.

Definition at_pos {A} (l : option (list A)) (k : nat) : option A :=
  match l with Some (x :: t) => nth_error (x :: t) k | _ => None end.

(** pool.py 1536-1624: the configuration handed to the main pool.  [pid] and [idx]: the process
    and the state of its index counter. *)
Definition layout (has_unix : bool) (pid : Z) (idx : nat) (g : args) : option (list (Z * conf)) :=
  let n := a_n g in
  if wrong_len (a_labels g) (n + 1) then None
  else if wrong_len (a_envs g) n then None
  else if wrong_len (a_schemes g) (n + 1) then None
  else if wrong_len (a_internal g) (n + 1) then None
  else match a_recover g with
  | RecOther => None
  | _ =>
    match get_external_addresses (a_address g) n (a_ports g) (a_schemes g) with
    | None => None
    | Some ext =>
        let enabled := match a_internal g with Some (b :: bs) => b :: bs | _ => repeat true (n + 1) end in
        let add pools k :=
          let i := process_index pid (idx + k) in
          let e := nth k ext [] in
          add_pool_conf pools i
            {| c_label := match at_pos (a_labels g) k with Some l => l | None => None end;
               c_internal := if nth k enabled false then Some (gen_internal_address has_unix i e) else None;
               c_external := e;
               c_env := match k with O => None | S j => at_pos (a_envs g) j end |} in
        Some (fold_left add (seq 0 (n + 1)) [])
    end
  end.
