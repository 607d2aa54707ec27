(** copy_to: sending buffers and files to another pool.
    Source: /repo/python/xoscar/context.pyx 332-352 (checks),
    /repo/python/xoscar/backends/context.py 353-440 (splitting into messages),
    /repo/python/xoscar/backends/pool.py 526-537 (receiving).

    A buffer is a list of items: the code measures with len(), which counts items
    and not bytes if the items of the buffer are larger than one byte.  Buffers of
    the receiving side have a fixed size, like memoryview and numpy arrays: an
    assignment to a slice of another size raises ValueError (a bytearray would
    change its size).

    Not modelled: UCX (send_buffers); get_client; failing connections (copy_to then
    raises). *)
From Coq Require Import List Arith Bool Lia.
From Verif Require Import Dict.
Import ListNotations.

Section Copy.
  Variable A : Type.
  Definition buf := list A.

  (** *** Receiving *)

  (** BufferRef._ref_to_buffers of the receiving process (core.pyx 595): a weak
      dictionary, entries vanish when the buffer is no longer used. *)
  Definition store := list (nat * buf).
  Inductive rerror := KeyError | ValueError.

  (** (addr, uid, start, len, data); there is one destination address. *)
  Record piece := { p_uid : nat; p_start : nat; p_len : nat; p_data : buf }.
  Definition message := list piece.

  (** pool.py 528-529: [buffer[start : start + len] = data]. *)
  Definition write (st : store) (p : piece) : store + rerror :=
    match gget Nat.eqb st (p_uid p) with
    | None => inr KeyError
    | Some b =>
        (* slice bounds are clamped to the size of the buffer *)
        let lo := min (p_start p) (length b) in
        let hi := min (p_start p + p_len p) (length b) in
        if hi - lo =? length (p_data p)
        then inl (gset Nat.eqb st (p_uid p) (firstn lo b ++ p_data p ++ skipn hi b))
        else inr ValueError
    end.
  (** pool.py 526-530: the pieces before the failing one have been written. *)
  Fixpoint handle (st : store) (m : message) : store * option rerror :=
    match m with
    | [] => (st, None)
    | p :: m' => match write st p with inl st' => handle st' m' | inr e => (st, Some e) end
    end.

  (** *** Sending buffers (backends/context.py 353-405) *)

  (** current_buf_size, one_block_data and the messages sent so far. *)
  Record snd_st := { cur : nat; data : message; sent : list message }.

  (** The loop 382-394 for one buffer; also returns last_start and the rest of
      l_buf.  [remain] never is negative (CopyProofs.cur_le).  [None]: [fuel] used
      up, which does not happen (CopyProofs.chop_total). *)
  Fixpoint chop (fuel block uid start : nat) (s : snd_st) (b : buf) : option (snd_st * nat * buf) :=
    if block <? cur s + length b then
      match fuel with
      | 0 => None
      | S f =>
          let remain := block - cur s in
          let p := {| p_uid := uid; p_start := start; p_len := remain; p_data := firstn remain b |} in
          chop f block uid (start + remain) {| cur := 0; data := []; sent := sent s ++ [data s ++ [p]] |}
            (skipn remain b)
      end
    else Some (s, start, b).

  (** 374-400 *)
  Definition put (block : nat) (s : snd_st) (r : nat * buf) : option snd_st :=
    let (uid, b) := r in
    if cur s + length b <? block then
      Some {| cur := cur s + length b;
              data := data s ++ [{| p_uid := uid; p_start := 0; p_len := length b; p_data := b |}];
              sent := sent s |}
    else
      match chop (S (length b)) block uid 0 s b with
      | None => None
      | Some (s1, start, rest) =>
          if 0 <? length rest then
            Some {| cur := length rest;     (* 400: not cur + length rest *)
                    data := data s1 ++ [{| p_uid := uid; p_start := start; p_len := length rest; p_data := rest |}];
                    sent := sent s1 |}
          else Some s1
      end.
  Fixpoint put_all (block : nat) (s : snd_st) (l : list (nat * buf)) : option snd_st :=
    match l with
    | [] => Some s
    | r :: l' => match put block s r with None => None | Some s' => put_all block s' l' end
    end.
  (** 370-405: the messages, in the order they are sent.  Each one is sent after
      the reply to the one before. *)
  Definition messages (block : nat) (l : list (nat * buf)) : option (list message) :=
    match put_all block {| cur := 0; data := []; sent := [] |} l with
    | None => None
    | Some s => Some (match data s with [] => sent s | _ => sent s ++ [data s] end)
    end.

  (** Between two messages the receiving process may do anything to its buffers:
      [env n] before the n-th message.  The reply is not looked at (388, 403: the
      result of _call_with_client is dropped), so an ErrorMessage has no effect. *)
  Fixpoint deliver (env : nat -> store -> store) (n : nat) (st : store) (ms : list message) : store :=
    match ms with
    | [] => env n st
    | m :: ms' => deliver env (S n) (fst (handle (env n st) m)) ms'
    end.

  (** *** Sending files (407-440) *)

  (** A local file: each element is what is available for one read; read(n) returns
      the first n items of it.  An empty result means end of file. *)
  Definition file := list buf.
  Definition content (f : file) : buf := concat f.

  Record fpiece := { f_uid : nat; f_data : buf }.
  Record fsnd := { fcur : nat; fdata : list fpiece; fsent : list (list fpiece) }.
  Definition fput (block : nat) (s : fsnd) (p : fpiece) : fsnd :=
    let c := fcur s + length (f_data p) in
    if block <=? c then {| fcur := 0; fdata := []; fsent := fsent s ++ [fdata s ++ [p]] |}
    else {| fcur := c; fdata := fdata s ++ [p]; fsent := fsent s |}.
  (** 419-433.  [None]: fuel used up. *)
  Fixpoint fread (fuel block uid : nat) (s : fsnd) (f : file) : option fsnd :=
    match fuel with
    | 0 => None
    | S fu =>
        match f with
        | [] => Some s
        | seg :: f' =>
            match firstn block seg with
            | [] => Some s
            | d => fread fu block uid (fput block s {| f_uid := uid; f_data := d |})
                     (match skipn block seg with [] => f' | r => r :: f' end)
            end
        end
    end.
  Definition file_fuel (f : file) : nat := S (length f + length (content f)).
  Fixpoint fput_all (block : nat) (s : fsnd) (l : list (nat * file)) : option fsnd :=
    match l with
    | [] => Some s
    | (uid, f) :: l' =>
        match fread (file_fuel f) block uid s f with None => None | Some s' => fput_all block s' l' end
    end.
  (** 417-440 *)
  Definition fmessages (block : nat) (l : list (nat * file)) : option (list (list fpiece)) :=
    match fput_all block {| fcur := 0; fdata := []; fsent := [] |} l with
    | None => None
    | Some s => Some (if 0 <? fcur s then fsent s ++ [fdata s] else fsent s)
    end.
  (** pool.py 532-537: the pieces written to each file of the receiving process. *)
  Definition fstore := list (nat * list buf).
  Fixpoint fhandle (st : fstore) (m : list fpiece) : fstore * option rerror :=
    match m with
    | [] => (st, None)
    | p :: m' =>
        match gget Nat.eqb st (f_uid p) with
        | None => (st, Some KeyError)
        | Some ws => fhandle (gset Nat.eqb st (f_uid p) (ws ++ [f_data p])) m'
        end
    end.
  Fixpoint fdeliver (env : nat -> fstore -> fstore) (n : nat) (st : fstore) (ms : list (list fpiece)) : fstore :=
    match ms with
    | [] => env n st
    | m :: ms' => fdeliver env (S n) (fst (fhandle (env n st) m)) ms'
    end.

  (** *** copy_to (context.pyx 332-352, backends/context.py 372 and 416)

      [None] as block size: DEFAULT_TRANSFER_BLOCK_SIZE; the addresses of the refs
      are numbers here. *)
  Inductive cerror := EEmpty | EDestinations | ESizes | EBlock | EInternal.
  Definition check {X} (locals : list X) (refs : list (nat * nat)) (block_size : option nat) : option cerror :=
    if (length locals =? 0) || (length refs =? 0) then Some EEmpty
    else match refs with
         | [] => Some EEmpty
         | (addr, _) :: _ =>
             if negb (forallb (fun r => fst r =? addr) refs) then Some EDestinations
             else if negb (length locals =? length refs) then Some ESizes
             else match block_size with Some 0 => Some EBlock | _ => None end
         end.
  Definition effective (default : nat) (block_size : option nat) : nat :=
    match block_size with Some b => if b =? 0 then default else b | None => default end.

  Definition copy_buffers (default : nat) (locals : list buf) (refs : list (nat * nat)) (block_size : option nat)
      (env : nat -> store -> store) (st : store) : store + cerror :=
    match check locals refs block_size with
    | Some e => inr e
    | None =>
        match messages (effective default block_size) (combine (map snd refs) locals) with
        | None => inr EInternal
        | Some ms => inl (deliver env 0 st ms)
        end
    end.
  Definition copy_files (default : nat) (locals : list file) (refs : list (nat * nat)) (block_size : option nat)
      (env : nat -> fstore -> fstore) (st : fstore) : fstore + cerror :=
    match check locals refs block_size with
    | Some e => inr e
    | None =>
        match fmessages (effective default block_size) (combine (map snd refs) locals) with
        | None => inr EInternal
        | Some ms => inl (fdeliver env 0 st ms)
        end
    end.
End Copy.

Arguments Build_piece {A}. Arguments p_uid {A}. Arguments p_start {A}. Arguments p_len {A}. Arguments p_data {A}.
Arguments Build_snd_st {A}. Arguments cur {A}. Arguments data {A}. Arguments sent {A}.
Arguments Build_fpiece {A}. Arguments f_uid {A}. Arguments f_data {A}.
Arguments Build_fsnd {A}. Arguments fcur {A}. Arguments fdata {A}. Arguments fsent {A}.
