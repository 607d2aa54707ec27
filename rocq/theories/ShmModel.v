(** * Model of the start-up hand-over through shared memory

    Source: python/xoscar/backends/indigen/pool.py 50-76 ([_shm_put_object],
    [_shm_get_object]), used by [_create_sub_pool_from_parent] (parent) and
    [_start_sub_pool_in_child] / [_create_sub_pool] (child).

    An object is the bytes of its pickle ([pickle.loads (pickle.dumps o)] is outside the
    model).  The memory maps addresses to bytes.  A slice assignment [buf[i:j] = ...] writes
    its bytes one by one in ANY order, but it is finished before the next statement of the
    program starts; a slice is likewise read byte by byte in any order.  Between any two byte
    accesses of one process the other may do any number of its own.  The memory is
    sequentially consistent (as between x86 processes; weaker memories are not modelled). *)
From Coq Require Import List ZArith Lia Bool.
Import ListNotations.
Open Scope Z_scope.

Notation byte := Z (only parsing).
Definition memory := Z -> byte.

(** pool.py 50 [_SUBPROCESS_SHM_SIZE] *)
Definition shm_size : Z := 10240.

(** [struct.pack("<I", n)] and [struct.unpack("<I", b)] *)
Definition pack (n : Z) : list byte :=
  [n mod 256; n / 256 mod 256; n / 65536 mod 256; n / 16777216 mod 256].
Definition unpack (b : list byte) : Z :=
  match b with
  | [b0; b1; b2; b3] => b0 + 256 * b1 + 65536 * b2 + 16777216 * b3
  | _ => 0
  end.

(** The byte writes of the slice assignment [buf[base : base+len(bs)] = bs]. *)
Fixpoint slice_writes (base : Z) (bs : list byte) : list (Z * byte) :=
  match bs with [] => [] | b :: bs => (base, b) :: slice_writes (base + 1) bs end.
(** The addresses of [buf[base : base+n]]. *)
Fixpoint slice (base : Z) (n : nat) : list Z :=
  match n with O => [] | S n => base :: slice (base + 1) n end.

(** pool.py 60-67 [_shm_put_object]: [None] is the AssertionError, otherwise the byte writes of
    its three statements, in program order. *)
Definition put_object (seq : Z) (serialized : list byte) : option (list (list (Z * byte))) :=
  if Z.of_nat (length serialized) <? shm_size - 8 then
    Some [slice_writes 4 (pack (Z.of_nat (length serialized)));
          slice_writes 8 serialized;
          slice_writes 0 (pack seq)]
  else None.

(** pool.py 70-75 [_shm_get_object]: where the reader is.  [todo]: addresses of the current
    slice still to be read; [got]: what was read so far.  [Done None] is Python's None. *)
Inductive reader :=
| Idle
| InSeq (todo : list Z) (got : list (Z * byte))
| InSize (todo : list Z) (got : list (Z * byte))
| InData (size : Z) (todo : list Z) (got : list (Z * byte))
| Done (o : option (list byte)).

Fixpoint value (a : Z) (got : list (Z * byte)) : byte :=
  match got with [] => 0 | (b, v) :: got => if a =? b then v else value a got end.
(** [buf[8:8+size]] is cut at the end of the buffer, as Python slices are. *)
Definition data_slice (size : Z) : list Z := slice 8 (Z.to_nat (Z.min size (shm_size - 8))).

Definition upd (m : memory) (a : Z) (v : byte) : memory := fun b => if b =? a then v else m b.

Record state := { mem : memory; todo_w : list (list (Z * byte)); rd : reader }.

(** One atomic step of the system; [seq] is the sequence number the reader expects.  The
    reader polls: after [Done] it may start again. *)
Inductive step (seq : Z) : state -> state -> Prop :=
| s_write : forall m l1 a v l2 rest r,
    step seq {| mem := m; todo_w := (l1 ++ (a, v) :: l2) :: rest; rd := r |}
             {| mem := upd m a v; todo_w := (l1 ++ l2) :: rest; rd := r |}
| s_statement_end : forall m rest r,
    step seq {| mem := m; todo_w := [] :: rest; rd := r |} {| mem := m; todo_w := rest; rd := r |}
| s_call : forall m w r, r = Idle \/ (exists o, r = Done o) ->
    step seq {| mem := m; todo_w := w; rd := r |} {| mem := m; todo_w := w; rd := InSeq (slice 0 4) [] |}
| s_read_seq : forall m w l1 a l2 got,
    step seq {| mem := m; todo_w := w; rd := InSeq (l1 ++ a :: l2) got |}
             {| mem := m; todo_w := w; rd := InSeq (l1 ++ l2) ((a, m a) :: got) |}
| s_seq_differs : forall m w got, unpack (map (fun a => value a got) (slice 0 4)) <> seq ->
    step seq {| mem := m; todo_w := w; rd := InSeq [] got |} {| mem := m; todo_w := w; rd := Done None |}
| s_seq_same : forall m w got, unpack (map (fun a => value a got) (slice 0 4)) = seq ->
    step seq {| mem := m; todo_w := w; rd := InSeq [] got |} {| mem := m; todo_w := w; rd := InSize (slice 4 4) [] |}
| s_read_size : forall m w l1 a l2 got,
    step seq {| mem := m; todo_w := w; rd := InSize (l1 ++ a :: l2) got |}
             {| mem := m; todo_w := w; rd := InSize (l1 ++ l2) ((a, m a) :: got) |}
| s_size : forall m w got size, size = unpack (map (fun a => value a got) (slice 4 4)) ->
    step seq {| mem := m; todo_w := w; rd := InSize [] got |}
             {| mem := m; todo_w := w; rd := InData size (data_slice size) [] |}
| s_read_data : forall m w size l1 a l2 got,
    step seq {| mem := m; todo_w := w; rd := InData size (l1 ++ a :: l2) got |}
             {| mem := m; todo_w := w; rd := InData size (l1 ++ l2) ((a, m a) :: got) |}
| s_data : forall m w size got,
    step seq {| mem := m; todo_w := w; rd := InData size [] got |}
             {| mem := m; todo_w := w; rd := Done (Some (map (fun a => value a got) (data_slice size))) |}.

Inductive steps (seq : Z) : state -> state -> Prop :=
| steps_refl : forall s, steps seq s s
| steps_step : forall s t u, steps seq s t -> step seq t u -> steps seq s u.
