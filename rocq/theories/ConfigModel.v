(** Pool configuration and allocation strategies.
    /repo/python/xoscar/backends/config.py, allocate_strategy.py *)
From Coq Require Import List Bool Arith ZArith String.
From Verif Require Import Dict.
Import ListNotations.

(** Exceptions that can leave these functions. *)
Inductive cexn := KeyError | IndexError | ValueError | NoIdleSlot.
Inductive res (A : Type) := Ok (a : A) | Err (e : cexn).
Arguments Ok {A} a.
Arguments Err {A} e.

Definition bind {A B} (x : res A) (f : A -> res B) : res B :=
  match x with Ok a => f a | Err e => Err e end.

Definition addr := string.

(** config.py 59-69, the entry of one pool.  Simplified: the fields env,
    modules, suspend_sigint, use_uvloop, logging_conf and kwargs are carried
    along unchanged by the code and are left out. *)
Record pconf := { c_label : option string; c_internal : option addr; c_external : list addr }.

(** config.py 20-36: the parts "pools" and "mapping" of the configuration. *)
Record config := { pools : list (nat * pconf); mapping : list (addr * option addr) }.

Definition empty : config := {| pools := []; mapping := [] |}.

Definition pget (c : config) (i : nat) : res pconf :=
  match gget Nat.eqb (pools c) i with Some p => Ok p | None => Err KeyError end.

(** config.py 71-73 and 121-122: mapping[addr] = internal for each address. *)
Definition map_all (m : list (addr * option addr)) (l : list addr) (i : option addr) :=
  fold_left (fun m a => gset String.eqb m a i) l m.

(** config.py 42-73 *)
Definition add_pool_conf (c : config) (idx : nat) (label : option string)
    (internal : option addr) (ext : list addr) : config :=
  {| pools := gset Nat.eqb (pools c) idx
                {| c_label := label; c_internal := internal; c_external := ext |};
     mapping := map_all (mapping c) ext internal |}.

(** config.py 83-84 *)
Definition get_external_address (c : config) (idx : nat) : res addr :=
  bind (pget c idx) (fun p =>
  match c_external p with a :: _ => Ok a | [] => Err IndexError end).

(** config.py 75-78.  The configuration left behind is returned even when the
    second [del] raises. *)
Definition remove_pool_config (c : config) (idx : nat) : config * option cexn :=
  match get_external_address c idx with
  | Err e => (c, Some e)
  | Ok a =>
      let ps := gdel Nat.eqb (pools c) idx in
      match gget String.eqb (mapping c) a with
      | None => ({| pools := ps; mapping := mapping c |}, Some KeyError)
      | Some _ => ({| pools := ps; mapping := gdel String.eqb (mapping c) a |}, None)
      end
  end.

(** config.py 86-87 *)
Definition get_process_indexes (c : config) : list nat := map fst (pools c).

(** config.py 89-95 *)
Fixpoint find_owner (ps : list (nat * pconf)) (a : addr) : res nat :=
  match ps with
  | [] => Err ValueError
  | (i, p) :: ps' => if existsb (String.eqb a) (c_external p) then Ok i else find_owner ps' a
  end.
Definition get_process_index (c : config) (a : addr) : res nat := find_owner (pools c) a.

Definition oeqb (x y : option string) : bool :=
  match x, y with
  | None, None => true
  | Some a, Some b => String.eqb a b
  | _, _ => false
  end.

(** config.py 107-112: the loop over the current external addresses, giving the
    internal address finally used and the mapping without these addresses. *)
Fixpoint reset_loop (new0 : addr) (internal : option addr) (m : list (addr * option addr))
    (old : list addr) : option addr * list (addr * option addr) :=
  match old with
  | [] => (internal, m)
  | a :: old' =>
      let internal' := if oeqb internal (Some a) then Some new0 else internal in
      reset_loop new0 internal' (gdel String.eqb m a) old'
  end.

(** config.py 97-116.  Simplified: [external_address] is never the empty list
    (with an empty list the code raises IndexError only if an address matches). *)
Definition reset_pool_external_address (c : config) (idx : nat) (new0 : addr) (rest : list addr)
    : config * option cexn :=
  match pget c idx with
  | Err e => (c, Some e)
  | Ok p =>
      let '(internal, m) := reset_loop new0 (c_internal p) (mapping c) (c_external p) in
      ({| pools := gset Nat.eqb (pools c) idx
             {| c_label := c_label p; c_internal := c_internal p; c_external := new0 :: rest |};
          mapping := map_all m (new0 :: rest) internal |}, None)
  end.

(** config.py 118-126 *)
Fixpoint ext_addrs (ps : list (nat * pconf)) (label : option string) : res (list addr) :=
  match ps with
  | [] => Ok []
  | (_, p) :: ps' =>
      if match label with None => true | Some _ => oeqb label (c_label p) end
      then match c_external p with
           | [] => Err IndexError
           | a :: _ => bind (ext_addrs ps' label) (fun l => Ok (a :: l))
           end
      else ext_addrs ps' label
  end.
Definition get_external_addresses (c : config) (label : option string) : res (list addr) :=
  ext_addrs (pools c) label.

(** The value reported for an external address (config.py 128-130, used through
    router.py 123-129). *)
Definition internal_of (c : config) (a : addr) : option (option addr) :=
  gget String.eqb (mapping c) a.

(** Sequences of configuration updates. *)
Inductive op :=
  | Add (idx : nat) (label : option string) (internal : option addr) (ext : list addr)
  | Remove (idx : nat)
  | Reset (idx : nat) (new0 : addr) (rest : list addr).

Definition apply (c : config) (o : op) : config :=
  match o with
  | Add i l n e => add_pool_conf c i l n e
  | Remove i => fst (remove_pool_config c i)
  | Reset i a r => fst (reset_pool_external_address c i a r)
  end.
Definition run (os : list op) : config := fold_left apply os empty.

(** ** Allocation strategies (allocate_strategy.py) *)

Inductive strategy :=
  | AddressSpecified (a : addr)            (* 55-65 *)
  | MainPool                               (* 68-77 *)
  | Random                                 (* 80-87 *)
  | RandomSubPool                          (* 90-97 *)
  | ProcessIndex (i : Z)                   (* 100-111 *)
  | RandomLabel (l : option string)        (* 114-124 *)
  | IdleLabel (l : option string) (mark : string).  (* 127-162 *)

(** Python [l[i]] with an int of any sign. *)
Definition py_nth {A} (l : list A) (i : Z) : res A :=
  let n := Z.of_nat (List.length l) in
  let j := (if (i <? 0)%Z then i + n else i)%Z in
  if ((0 <=? j)%Z && (j <? n)%Z)%bool
  then match nth_error l (Z.to_nat j) with Some a => Ok a | None => Err IndexError end
  else Err IndexError.

(** [random.choice]; the random number [r] is arbitrary. *)
Definition choice {A} (r : nat) (l : list A) : res A :=
  match nth_error l (r mod List.length l) with
  | Some a => Ok a
  | None => Err IndexError
  end.

(** [==] between two strategies as used in line 155: only IdleLabel defines
    [__eq__] (134-139), so [IdleLabel == other] is false for another class. *)
Definition same_idle (s : strategy) (l : option string) (mark : string) : bool :=
  match s with
  | IdleLabel l' m' => oeqb l' l && String.eqb m' mark
  | _ => false
  end.

(** [allocated.get(addr, dict()).values()]: the strategies of the actors (and
    pending creations) recorded at an address. *)
Definition allocated := addr -> list strategy.

Fixpoint first_idle (al : allocated) (l : option string) (mark : string) (as_ : list addr) : res addr :=
  match as_ with
  | [] => Err NoIdleSlot
  | a :: as' => if existsb (fun s => same_idle s l mark) (al a)
                then first_idle al l mark as' else Ok a
  end.

Definition get_allocated_address (s : strategy) (c : config) (al : allocated) (r : nat) : res addr :=
  match s with
  | AddressSpecified a => Ok a
  | MainPool =>
      bind (py_nth (get_process_indexes c) 0) (fun i => get_external_address c i)
  | Random => bind (get_external_addresses c None) (choice r)
  | RandomSubPool => bind (get_external_addresses c None) (fun l => choice r (skipn 1 l))
  | ProcessIndex i => bind (py_nth (get_process_indexes c) i) (fun j => get_external_address c j)
  | RandomLabel l => bind (get_external_addresses c l) (choice r)
  | IdleLabel l m => bind (get_external_addresses c l) (first_idle al l m)
  end.
