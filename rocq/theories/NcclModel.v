(** * Model of NCCL groups

    Source: python/xoscar/collective/process_group.py 333-384 (creation of a group other than the world: the unique id
    travels over the world's communicator), 446-489 (gather), 516-561 (scatter), 597-655 (alltoall) of such a group;
    collective/core.py 94-146 ([new_group]: group ranks are positions in the sorted list of world ranks).

    NCCL's point-to-point calls are modelled by their documentation: the k-th [send] of a rank to a peer is matched with
    the k-th [recv] of the peer from this rank; the number of elements must be the same on both sides; a call that
    is never matched never ends (None).  Between groupStart and groupEnd the calls run concurrently.  In the creation of
    a group every rank only sends or only receives, so that the order of calls does not matter either.
    Simplifications.  Arrays have two dimensions and are given by their rows (for scatter: the data of each
    member).  The operations on the world communicator, which cupyx implements, the reductions, allgather and broadcast, which are
    single NCCL calls, types and streams are left out. *)
From Coq Require Import List Arith Bool Lia ZArith.
Import ListNotations.

Inductive p2p := Send (peer : nat) (payload : list Z) | Recv (peer : nat) (slot : nat) (count : nat).
(** What rank [s]'s program sends to [d], and what [d]'s expects from [s] *)
Definition sends_to (d : nat) (prog : list p2p) : list (list Z) :=
  flat_map (fun o => match o with Send p x => if p =? d then [x] else [] | Recv _ _ _ => [] end) prog.
Definition recvs_from (s : nat) (prog : list p2p) : list (nat * nat) :=
  flat_map (fun o => match o with Recv p i c => if p =? s then [(i, c)] else [] | Send _ _ => [] end) prog.
Fixpoint leqb (a b : list nat) : bool :=
  match a, b with [], [] => true | x :: a, y :: b => (x =? y) && leqb a b | _, _ => false end.
Definition program (progs : list (list p2p)) (r : nat) : list p2p := nth r progs [].
Definition matched (progs : list (list p2p)) : bool :=
  forallb (fun s => forallb (fun d => leqb (map (@length Z) (sends_to d (program progs s))) (map snd (recvs_from s (program progs d))))
    (seq 0 (length progs))) (seq 0 (length progs)).
Fixpoint set_row (rows : list (list Z)) (i : nat) (x : list Z) : list (list Z) :=
  match rows, i with
  | [], _ => []
  | _ :: rows, O => x :: rows
  | r :: rows, S i => r :: set_row rows i x
  end.
(** What arrives at rank [d]: which slot, what *)
Definition arriving (progs : list (list p2p)) (d : nat) : list (nat * list Z) :=
  flat_map (fun s => combine (map fst (recvs_from s (program progs d))) (sends_to d (program progs s))) (seq 0 (length progs)).
(** The receive buffers afterwards; [bufs] are those before, with what a rank copied to itself *)
Definition exchange (progs : list (list p2p)) (bufs : list (list (list Z))) : option (list (list (list Z))) :=
  if matched progs
  then Some (map (fun d => fold_left (fun rows (ix : nat * list Z) => set_row rows (fst ix) (snd ix)) (arriving progs d) (nth d bufs [])) (seq 0 (length progs)))
  else None.

(** ** Creation of a group (process_group.py 369-384) *)
(** [group]: the world ranks in ascending order; [id]: the unique id made by the member with group rank 0.  The peers
    of [_world._backend.send(ccid, i, None)] and [recv(ccid, 0, None)] are ranks of the world.
    The 128 numbers of the id are received into slot 0. *)
Definition id_program (world : nat) (group : list nat) (id : list Z) (w : nat) : list p2p :=
  match find (fun j => nth j group world =? w) (seq 0 (length group)) with
  | None => []                                              (* not a member: new_group returns None at once *)
  | Some 0 => map (fun i => Send i id) (seq 1 (length group - 1))
  | Some _ => [Recv 0 0 (length id)]
  end.
Definition create_group (world : nat) (group : list nat) (id : list Z) : option (list (list (list Z))) :=
  exchange (map (id_program world group id) (seq 0 world)) (repeat [[]] world).

(** ** Operations of a group (numbers are group ranks) *)
Definition row (rows : list (list Z)) (i : nat) : list Z := nth i rows [].
(** 446-489: gather.  [recv_buf[peer : peer + 1]] *)
Definition gather_program (n root : nat) (send : list Z) (recv : list (list Z)) (r : nat) : list p2p :=
  if r =? root then flat_map (fun peer => if peer =? r then [] else [Recv peer peer (length (row recv peer))]) (seq 0 n)
  else [Send root send].
Definition total (rows : list (list Z)) : nat := list_sum (map (@length Z) rows).
(** The assertion (453-455) of each member; the assignment of the root to its own row raises if the row has another length *)
Definition gather (root : nat) (sends : list (list Z)) (recvs : list (list (list Z))) : option (list (list (list Z))) :=
  let n := length sends in
  if forallb (fun r => length (nth r sends []) * n =? total (nth r recvs [])) (seq 0 n)
     && (length (row (nth root recvs []) root) =? length (nth root sends []))
  then exchange (map (fun r => gather_program n root (nth r sends []) (nth r recvs []) r) (seq 0 n))
         (map (fun r => if r =? root then set_row (nth r recvs []) r (nth r sends []) else nth r recvs []) (seq 0 n))
  else None.
(** 516-561: scatter; [recv_buf] is slot 0 *)
Definition scatter_program (n root : nat) (send : list (list Z)) (recv : list Z) (r : nat) : list p2p :=
  if r =? root then flat_map (fun peer => if peer =? root then [] else [Send peer (row send peer)]) (seq 0 n)
  else [Recv root 0 (length recv)].
Definition scatter (root : nat) (send : list (list Z)) (recvs : list (list Z)) : option (list (list (list Z))) :=
  let n := length recvs in
  if (length send =? n) && (length (nth root recvs []) =? length (row send root))
  then exchange (map (fun r => scatter_program n root send (nth r recvs []) r) (seq 0 n))
         (map (fun r => if r =? root then [row send root] else [nth r recvs []]) (seq 0 n))
  else None.
(** 597-655: alltoall *)
Definition alltoall_program (n : nat) (send recv : list (list Z)) (r : nat) : list p2p :=
  flat_map (fun peer =>
    if peer =? r then []
    else if peer <? r then [Recv peer peer (length (row recv peer)); Send peer (row send peer)]
    else [Send peer (row send peer); Recv peer peer (length (row recv peer))]) (seq 0 n).
Definition alltoall (sends recvs : list (list (list Z))) : option (list (list (list Z))) :=
  let n := length sends in
  if forallb (fun r => (length (nth r sends []) =? n) && (total (nth r recvs []) =? total (nth r sends []))
                       && (length (row (nth r recvs []) r) =? length (row (nth r sends []) r))) (seq 0 n)
  then exchange (map (fun r => alltoall_program n (nth r sends []) (nth r recvs []) r) (seq 0 n))
         (map (fun r => set_row (nth r recvs []) r (row (nth r sends []) r)) (seq 0 n))
  else None.
