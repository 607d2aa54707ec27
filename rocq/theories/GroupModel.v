(** * Model of the collective groups of one rank actor

    Source: python/xoscar/collective/core.py, class RankActor (lines 35-157).

    Numbers are Python integers ([Z]).  [sha1] is a parameter [H]; what is needed of it is a
    hypothesis of the theorems, visible in their statements.  Creating the native process
    group (ProcessGroupGloo / ProcessGroupNCCL, a rendezvous with the other members) either
    succeeds or raises: the boolean [ok] of a call.  [device_id], [pg_options] and the ip are
    not modelled: they never influence the name, the rank or the size. *)
From Coq Require Import String Ascii DecimalString DecimalZ.
From Coq Require Import List ZArith Lia Bool.
From Verif Require Import PyStr.
Import ListNotations.
Open Scope list_scope.
Open Scope Z_scope.

(** core.py 44-46: the backend is "gloo" or "nccl" (anything else is refused by the assert). *)
Inductive backend := Gloo | Nccl.
Definition backend_text (b : backend) : text :=
  match b with Gloo => lit "gloo" | Nccl => lit "nccl" end.

(** process_group.py 62-93: what a process group says about itself: [rank] and [world_size]. *)
Record pg := { pg_rank : Z; pg_size : Z }.

(** core.py 36-53: [_rank], [_world], [_backend] and [name_to_pg[_backend]] (a dict; newest
    binding first, one actor only ever uses the entry of its own backend). *)
Record actor := { a_rank : Z; a_world : Z; a_backend : backend; a_groups : list (text * pg) }.

Fixpoint lookup (n : text) (l : list (text * pg)) : option pg :=
  match l with
  | [] => None
  | (m, p) :: l' => if text_eqb n m then Some p else lookup n l'
  end.

(** core.py 82-83 [process_group]: [None] stands for the KeyError. *)
Definition process_group (a : actor) (n : text) : option pg := lookup n (a_groups a).

(** core.py 58-80 [__post_create__]: the group "default" holds the actor's own rank and world. *)
Definition create (rank world : Z) (b : backend) : actor :=
  {| a_rank := rank; a_world := world; a_backend := b;
     a_groups := [(lit "default", {| pg_rank := rank; pg_size := world |})] |}.

(** Python's [str] of an int. *)
Definition str_int (z : Z) : text := lit (NilZero.string_of_int (Z.to_int z)).

(** Python's [sorted] on ints (insertion sort). *)
Fixpoint insert (x : Z) (l : list Z) : list Z :=
  match l with
  | [] => [x]
  | y :: l' => if x <=? y then x :: l else y :: insert x l'
  end.
Fixpoint sorted (l : list Z) : list Z :=
  match l with [] => [] | x :: l' => insert x (sorted l') end.

(** Python's [list.index] (the caller has checked membership). *)
Fixpoint index_of (x : Z) (l : list Z) : Z :=
  match l with
  | [] => 0
  | y :: l' => if x =? y then 0 else 1 + index_of x l'
  end.

(** The outcomes of [new_group]: an AssertionError, None, an exception of the native group,
    or a name. *)
Inductive answer := Refused | NotMember | Failed | Name (n : text).

(** core.py 100-103 [_process_group_name] *)
Definition process_group_name (H : text -> text) (b : backend) (ranks : list Z) : text :=
  H (backend_text b ++ join (lit "_") (map str_int ranks)).

(** core.py 105-155 [new_group] *)
Definition new_group (H : text -> text) (a : actor) (ranks : list Z) (ok : bool) : answer * actor :=
  if negb (Z.of_nat (length ranks) <=? a_world a) then (Refused, a)
  else if negb (forallb (fun r => (r <? a_world a) && (0 <=? r)) ranks) then (Refused, a)
  else if negb (Nat.eqb (length (nodup Z.eq_dec ranks)) (length ranks)) then (Refused, a)
  else if negb (existsb (Z.eqb (a_rank a)) ranks) then (NotMember, a)
  else if Z.of_nat (length ranks) =? a_world a then (Name (lit "default"), a)
  else
    let global_ranks := sorted ranks in
    let group_rank := index_of (a_rank a) global_ranks in
    let group_world := Z.of_nat (length global_ranks) in
    let group_name := process_group_name H (a_backend a) global_ranks in
    match lookup group_name (a_groups a) with
    | Some _ => (Name group_name, a)
    | None =>
        if ok then
          (Name group_name,
           {| a_rank := a_rank a; a_world := a_world a; a_backend := a_backend a;
              a_groups := (group_name, {| pg_rank := group_rank; pg_size := group_world |})
                          :: a_groups a |})
        else (Failed, a)
    end.

(** One actor over its life: created once, then any sequence of calls, each with the list it
    was given and the answer it got (newest first). *)
Inductive life (H : text -> text) : actor -> list (list Z * answer) -> Prop :=
| life_create : forall r w b, life H (create r w b) []
| life_call : forall a h ranks ok a' ans,
    life H a h -> new_group H a ranks ok = (ans, a') -> life H a' ((ranks, ans) :: h).
