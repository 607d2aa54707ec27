(** Restarting a lost sub pool.
    /repo/python/xoscar/backends/pool.py 1451-1481 and indigen/pool.py 495-506. *)
From Coq Require Import List Bool Arith.
From Verif Require Import Dict.
Import ListNotations.

(** A CreateActorMessage: uid, arguments (one number stands for class, args and
    kwargs), from_main. *)
Record cmsg := { m_uid : nat; m_args : nat; m_from_main : bool }.

(** [_allocated_actors[address]] for the address of the sub pool: references to
    its actors (here their uids), or the placeholder key None, with the message
    that creates them. *)
Definition key := option nat.
Definition keqb (x y : key) : bool :=
  match x, y with
  | Some a, Some b => Nat.eqb a b
  | None, None => true
  | _, _ => false
  end.
Definition entries := list (key * cmsg).

(** What the main pool does with these entries: set and clear the placeholder
    (pool.py 1055, 1089) with the client's message; record an actor with the
    message it sent to the sub pool (1081-1085) or that the sub pool reported
    (1260-1269, which sets from_main); forget an actor (1124). *)
Inductive dop :=
  | Place (u x : nat)
  | Unplace
  | Record_ (u x : nat)
  | Forget (u : nat).
Definition dapply (d : entries) (o : dop) : entries :=
  match o with
  | Place u x => gset keqb d None {| m_uid := u; m_args := x; m_from_main := false |}
  | Unplace => gdel keqb d None
  | Record_ u x => gset keqb d (Some u) {| m_uid := u; m_args := x; m_from_main := true |}
  | Forget u => gdel keqb d (Some u)
  end.
Definition directory (os : list dop) : entries := fold_left dapply os [].

Inductive recover_mode := NoRecover | RecoverProcess | RecoverActor.   (* auto_recover: False, "process", "actor" *)

(** pool.py 1451-1455 *)
Definition process_sub_pool_lost (mode : recover_mode) (d : entries) : entries :=
  match mode with RecoverActor => d | _ => [] end.

(** indigen/pool.py 502-506: the loop over the values of the dictionary, with an
    await in its body.  [seen i] is the dictionary at the i-th turn; Python raises
    RuntimeError if its size has changed.  The result is the list of messages
    sent and whether the loop ran to its end.  (Simplified: if entries are
    replaced so that the size stays the same, the i-th entry is taken.) *)
Fixpoint replay (fuel : nat) (seen : nat -> entries) (i : nat) : list cmsg * bool :=
  match fuel with
  | 0 => ([], true)
  | S f =>
      if Nat.eqb (length (seen i)) (length (seen 0)) then
        match nth_error (seen i) i with
        | None => ([], true)
        | Some (_, m) => let '(l, ok) := replay f seen (S i) in (m :: l, ok)
        end
      else ([], false)
  end.

(** pool.py 610-631: the restarted pool runs the creations one after the other;
    an existing uid is refused. *)
Definition create_in (reg : list (nat * nat)) (m : cmsg) : list (nat * nat) :=
  match gget Nat.eqb reg (m_uid m) with
  | Some _ => reg
  | None => gset Nat.eqb reg (m_uid m) (m_args m)
  end.

(** pool.py 1464-1470 with indigen/pool.py 495-506: what happens once a sub pool
    is found dead: the main pool's entries afterwards, the messages sent to the
    new process and its registry ([None]: not restarted). *)
Definition on_lost (mode : recover_mode) (d : entries) (seen : nat -> entries)
    : entries * list cmsg * option (list (nat * nat)) :=
  let d' := process_sub_pool_lost mode d in
  match mode with
  | NoRecover => (d', [], None)
  | RecoverProcess => (d', [], Some [])
  | RecoverActor =>
      let '(ms, _) := replay (S (length d')) seen 0 in
      (d', ms, Some (fold_left create_in ms []))
  end.
